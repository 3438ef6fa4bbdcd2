(** Exact extended-real arithmetic as an instance of [FloatOps]: IEEE-754 special values, no rounding,
    no overflow, unsigned zero. *)
From Coq Require Import List Arith ZArith Lia Bool Reals Lra.
From Flocq Require Import Core.
From Verif Require Import Base Floats.
Set Implicit Arguments.
Local Open Scope R_scope.

Definition xadd (x y : xr) : xr :=
  match x, y with
  | XNaN, _ | _, XNaN => XNaN
  | XInf s, XInf t => if Bool.eqb s t then XInf s else XNaN
  | XInf s, XFin _ => XInf s
  | XFin _, XInf t => XInf t
  | XFin a, XFin b => XFin (a + b)
  end.

Definition xsub (x y : xr) : xr := xadd x (xneg y).

(** sign of a finite real: [None] for zero, [Some true] for negative *)
Definition rsign (r : R) : option bool :=
  match Rcompare r 0 with Lt => Some true | Eq => None | Gt => Some false end.

Definition xmul (x y : xr) : xr :=
  match x, y with
  | XNaN, _ | _, XNaN => XNaN
  | XInf s, XInf t => XInf (xorb s t)
  | XInf s, XFin b => match rsign b with None => XNaN | Some t => XInf (xorb s t) end
  | XFin a, XInf t => match rsign a with None => XNaN | Some s => XInf (xorb s t) end
  | XFin a, XFin b => XFin (a * b)
  end.

(** division: 0/0 and inf/inf are NaN, r/0 is an infinity of the sign of r (zero is unsigned here) *)
Definition xdiv (x y : xr) : xr :=
  match x, y with
  | XNaN, _ | _, XNaN => XNaN
  | XInf s, XInf t => XNaN
  | XInf s, XFin b => match rsign b with None => XInf s | Some t => XInf (xorb s t) end
  | XFin a, XInf t => XFin 0
  | XFin a, XFin b =>
      match rsign b with
      | None => match rsign a with None => XNaN | Some s => XInf s end
      | Some _ => XFin (a / b)
      end
  end.

Definition xround (x : xr) : xr :=
  match x with XFin r => XFin (IZR (ZnearestA r)) | _ => x end.

Definition xtoZ (x : xr) : option Z :=
  match x with
  | XFin r => if Rlt_bool (-1) r && Rlt_bool r (IZR (2 ^ 64)) then Some (Ztrunc r) else None
  | _ => None
  end.

#[global] Instance xr_ops : FloatOps xr := {
  fcmp := xcmp;
  fadd := xadd; fsub := xsub; fmul := xmul; fdiv := xdiv;
  fneg := xneg; fabs := xabs; fround := xround;
  fofZ := fun z => XFin (IZR z);
  frat := fun p q => XFin (IZR p / IZR (Zpos q));
  ftoZ := xtoZ;
  fnan := XNaN; fpinf := XInf false; fninf := XInf true;
  fmaxval := XInf false; fminval := XInf true;
  fsum64 := fun l => fold_left xadd l (XFin 0);
}.

Lemma fold_left_xadd_ints l zs a :
  l = map (fun z => XFin (IZR z)) zs ->
  fold_left xadd l (XFin a) = XFin (a + IZR (fold_right Z.add 0%Z zs)).
Proof.
  revert l a; induction zs as [|z zs IH]; intros l a ->; simpl.
  - f_equal; ring.
  - rewrite (IH _ _ eq_refl). rewrite plus_IZR. f_equal; ring.
Qed.

Lemma xle_fin a b : xle (XFin a) (XFin b) <-> a <= b.
Proof.
  unfold xle; simpl. destruct (Rcompare_spec a b); split; intros H0;
    try lra; try (destruct H0; discriminate); auto.
Qed.

(** [B] is an arbitrary bound: exactness holds for all reals, so any bound is fine. *)
Definition xr_laws (B : Z) (HB : (4096 <= B)%Z) : FloatLaws (FO := xr_ops) xr.
Proof.
  refine (@Build_FloatLaws xr xr_ops (fun x => x) XFin (fun _ => True) B _ _ _ _ HB _ _ _ _ _ _ _ _ _ _ _ _ _ _ _ _ _ _ _ _ _ _ _ _ _ _); cbn.
  - (* fcmp *) reflexivity.
  - discriminate.
  - intros; apply xle_fin; assumption.
  - reflexivity.
  - auto.
  - auto.
  - auto.
  - intros x y a b -> ->; reflexivity.
  - intros x y a b -> ->; reflexivity.
  - intros x y a b -> ->; reflexivity.
  - intros x y a b -> -> Hb; cbn. unfold rsign.
    destruct (Rcompare_spec b 0); try reflexivity. contradiction.
  - intros x y -> ->; cbn. unfold rsign. now rewrite Rcompare_Eq.
  - intros x y ->; reflexivity.
  - intros x y ->; destruct x as [|[]|]; reflexivity.
  - intros x y ->; reflexivity.
  - intros x y ->; reflexivity.
  - reflexivity.
  - reflexivity.
  - intros x r ->; reflexivity.
  - reflexivity.
  - reflexivity.
  - intros x r -> H; cbn -[Z.pow]. rewrite !Rlt_bool_true by apply H. reflexivity.
  - intros x r -> H; cbn -[Z.pow].
    destruct (Rlt_bool_spec (-1) r); [|reflexivity].
    destruct (Rlt_bool_spec r (IZR (2^64))); [|reflexivity]. exfalso; apply H; auto.
  - intros x [-> | [s ->]]; reflexivity.
  - reflexivity.
  - reflexivity.
  - reflexivity.
  - intros; left; reflexivity.
  - intros; left; reflexivity.
  - intros l zs H _ _. rewrite map_id in H. rewrite (fold_left_xadd_ints _ _ H). f_equal; ring.
Defined.
