(** The [num_traits::Float] interface used by /repo/src, as a record of operations, together with
    the laws that both IEEE-754 arithmetic and exact extended-real arithmetic satisfy. *)
From Coq Require Import List Arith ZArith Lia Bool Permutation Sorted Reals Lra.
From Flocq Require Import Core.
From Verif Require Import Base.
Set Implicit Arguments.

(* ------------------------------------------------------------------ *)
(** * Extended reals: the mathematical value of a float *)

Inductive xr := XNaN | XInf (neg : bool) | XFin (r : R).

Definition xcmp (x y : xr) : option comparison :=
  match x, y with
  | XNaN, _ | _, XNaN => None
  | XInf true, XInf true => Some Eq
  | XInf true, _ => Some Lt
  | XInf false, XInf false => Some Eq
  | XInf false, _ => Some Gt
  | XFin _, XInf true => Some Gt
  | XFin _, XInf false => Some Lt
  | XFin a, XFin b => Some (Rcompare a b)
  end.

Definition xneg (x : xr) : xr :=
  match x with XNaN => XNaN | XInf s => XInf (negb s) | XFin r => XFin (- r) end.

Definition xabs (x : xr) : xr :=
  match x with XNaN => XNaN | XInf s => XInf false | XFin r => XFin (Rabs r) end.

(** x <= y as extended reals, false if either is NaN *)
Definition xle (x y : xr) : Prop := xcmp x y = Some Lt \/ xcmp x y = Some Eq.
Definition xlt (x y : xr) : Prop := xcmp x y = Some Lt.

(* ------------------------------------------------------------------ *)
(** * Operations *)

Class FloatOps (F : Type) := {
  fcmp : F -> F -> option comparison;      (* PartialOrd::partial_cmp *)
  fadd : F -> F -> F;
  fsub : F -> F -> F;
  fmul : F -> F -> F;
  fdiv : F -> F -> F;
  fneg : F -> F;
  fabs : F -> F;
  fround : F -> F;                         (* Float::round: nearest, ties away from zero *)
  fofZ : Z -> F;                           (* F::from(integer).unwrap() *)
  frat : Z -> positive -> F;               (* F::from(literal p/q).unwrap(), e.g. 0.5 = frat 1 2 *)
  ftoZ : F -> option Z;                    (* ToPrimitive::to_usize / to_u64: truncate; None if NaN or out of range *)
  fnan : F;                                (* F::from(f64::NAN).unwrap() *)
  fpinf : F;                               (* F::from(f64::INFINITY).unwrap() *)
  fninf : F;                               (* F::from(f64::NEG_INFINITY).unwrap() *)
  fmaxval : F;                             (* F::max_value() *)
  fminval : F;                             (* F::min_value() *)
  fsum64 : list F -> F;                    (* F::from(it.map(|w| w.to_f64().unwrap()).sum::<f64>()).unwrap() *)
}.

Section Derived.
  Context {F : Type} {FO : FloatOps F}.

  (** the Rust operators <, <=, >, >=, == on floats: false whenever a NaN is involved *)
  Definition flt (x y : F) : bool := match fcmp x y with Some Lt => true | _ => false end.
  Definition fle (x y : F) : bool := match fcmp x y with Some Lt | Some Eq => true | _ => false end.
  Definition fgt (x y : F) : bool := match fcmp x y with Some Gt => true | _ => false end.
  Definition fge (x y : F) : bool := match fcmp x y with Some Gt | Some Eq => true | _ => false end.
  Definition feq (x y : F) : bool := match fcmp x y with Some Eq => true | _ => false end.
  Definition fisnan (x : F) : bool := match fcmp x x with None => true | _ => false end.

  (** f64::max / f64::min (num_traits::Float::max/min): a NaN argument is ignored.
      (Which of two equal arguments is returned only matters for the sign of zero.) *)
  Definition fmax (x y : F) : F :=
    if fisnan x then y else if fisnan y then x else if flt x y then y else x.
  Definition fmin (x y : F) : F :=
    if fisnan x then y else if fisnan y then x else if flt y x then y else x.

  Definition f0 : F := fofZ 0.
  Definition f1 : F := fofZ 1.
  Definition f2 : F := fofZ 2.
  Definition fhalf : F := frat 1 2.
  Definition fof_nat (n : nat) : F := fofZ (Z.of_nat n).

  (** [to_usize().unwrap()] *)
  Definition to_usize (x : F) : M nat := liftM Z.to_nat (unwrap (ftoZ x)).

  (** [x.partial_cmp(&y).unwrap()] *)
  Definition cmp_unwrap (x y : F) : M comparison := unwrap (fcmp x y).

  (** [v.sort_by(|a, b| key(a).partial_cmp(&key(b)).unwrap())] (stable).
      Any comparison sort of two or more elements compares each element at least once, so a NaN key panics;
      slices of length 0 or 1 are never compared. *)
  Definition sort_by_key {A} (key : A -> F) (l : list A) : M (list A) :=
    match l with
    | [] | [_] => Ret l
    | _ => if existsb (fun a => fisnan (key a)) l then Panic
           else Ret (isort (fun a b => flt (key a) (key b)) l)
    end.

  (** [it.min_by(|a,b| key(a).partial_cmp(key(b)).unwrap())]: first minimal element; panics if a comparison meets a NaN. *)
  Definition min_by_key {A} (key : A -> F) (l : list A) : M (option A) :=
    match l with
    | [] => Ret None
    | a :: l' => liftM (@Some A)
        (foldM (fun m x => do c <- cmp_unwrap (key m) (key x);
                           Ret (match c with Gt => x | _ => m end)) a l')
    end.

  (** [it.max_by(..)]: last maximal element. *)
  Definition max_by_key {A} (key : A -> F) (l : list A) : M (option A) :=
    match l with
    | [] => Ret None
    | a :: l' => liftM (@Some A)
        (foldM (fun m x => do c <- cmp_unwrap (key m) (key x);
                           Ret (match c with Gt => m | _ => x end)) a l')
    end.
End Derived.

(* ------------------------------------------------------------------ *)
(** * Laws *)

Class FloatLaws (F : Type) {FO : FloatOps F} := {
  fval : F -> xr;                          (* mathematical value *)
  frnd : R -> xr;                          (* rounding of an exact result *)
  fexact : R -> Prop;                      (* exactly representable reals *)
  fint : Z;                                (* all integers and half integers z, z/2 with |z| <= fint are exact *)

  fcmp_val : forall x y, fcmp x y = xcmp (fval x) (fval y);
  frnd_not_nan : forall r, frnd r <> XNaN;
  frnd_mono : forall a b, (a <= b)%R -> xle (frnd a) (frnd b);
  frnd_exact : forall r, fexact r -> frnd r = XFin r;
  fint_ge : (4096 <= fint)%Z;
  fint_exact : forall z, (Z.abs z <= fint)%Z -> fexact (IZR z);
  fhalf_exact : forall z, (Z.abs z <= fint)%Z -> fexact (IZR z / 2);
  fval_exact : forall x r, fval x = XFin r -> fexact r;

  fadd_fin : forall x y a b, fval x = XFin a -> fval y = XFin b -> fval (fadd x y) = frnd (a + b);
  fsub_fin : forall x y a b, fval x = XFin a -> fval y = XFin b -> fval (fsub x y) = frnd (a - b);
  fmul_fin : forall x y a b, fval x = XFin a -> fval y = XFin b -> fval (fmul x y) = frnd (a * b);
  fdiv_fin : forall x y a b, fval x = XFin a -> fval y = XFin b -> b <> 0%R -> fval (fdiv x y) = frnd (a / b);
  fdiv_zero : forall x y, fval x = XFin 0 -> fval y = XFin 0 -> fval (fdiv x y) = XNaN;
  fadd_nan_l : forall x y, fval x = XNaN -> fval (fadd x y) = XNaN;
  fadd_nan_r : forall x y, fval y = XNaN -> fval (fadd x y) = XNaN;
  fmul_nan_l : forall x y, fval x = XNaN -> fval (fmul x y) = XNaN;
  fdiv_nan_l : forall x y, fval x = XNaN -> fval (fdiv x y) = XNaN;
  fneg_val : forall x, fval (fneg x) = xneg (fval x);
  fabs_val : forall x, fval (fabs x) = xabs (fval x);
  fround_fin : forall x r, fval x = XFin r -> fval (fround x) = XFin (IZR (ZnearestA r));
  fofZ_val : forall z, fval (fofZ z) = frnd (IZR z);
  frat_val : forall p q, (Z.abs p <= fint)%Z -> (Zpos q <= fint)%Z -> fval (frat p q) = frnd (IZR p / IZR (Zpos q));
  ftoZ_fin : forall x r, fval x = XFin r -> (-1 < r < IZR (2 ^ 64))%R -> ftoZ x = Some (Ztrunc r);
  ftoZ_none : forall x r, fval x = XFin r -> ~ (-1 < r < IZR (2 ^ 64))%R -> ftoZ x = None;
  ftoZ_special : forall x, (fval x = XNaN \/ exists s, fval x = XInf s) -> ftoZ x = None;
  fnan_val : fval fnan = XNaN;
  fpinf_val : fval fpinf = XInf false;
  fninf_val : fval fninf = XInf true;
  fmaxval_ge : forall x r, fval x = XFin r -> xle (XFin r) (fval fmaxval);
  fminval_le : forall x r, fval x = XFin r -> xle (fval fminval) (XFin r);
  (** sums of non-negative integer weights: the f64 accumulator is exact below 2^53, then converted to F *)
  fsum64_ints : forall l zs, map fval l = map (fun z => XFin (IZR z)) zs ->
      Forall (fun z => (0 <= z)%Z) zs -> (fold_right Z.add 0%Z zs <= 2 ^ 53)%Z ->
      fval (fsum64 l) = frnd (IZR (fold_right Z.add 0%Z zs));
}.
Arguments FloatLaws F {FO}.
Arguments fadd_fin {F FO _} [x y a b] _ _.
Arguments fsub_fin {F FO _} [x y a b] _ _.
Arguments fmul_fin {F FO _} [x y a b] _ _.
Arguments fdiv_fin {F FO _} [x y a b] _ _ _.
Arguments fdiv_zero {F FO _} [x y] _ _.
Arguments fround_fin {F FO _} [x r] _.
Arguments ftoZ_fin {F FO _} [x r] _ _.
Arguments ftoZ_none {F FO _} [x r] _ _.
Arguments fval_exact {F FO _} [x r] _.
Arguments frnd_exact {F FO _} [r] _.
Arguments fmaxval_ge {F FO _} [x r] _.
Arguments fminval_le {F FO _} [x r] _.
