(** Model of the scale functions, /repo/src/t_digest/scale_functions.rs. *)
From Coq Require Import List ZArith Lia Bool Reals Lra.
From Flocq Require Import Core.
From Verif Require Import Base Floats XReal.
Set Implicit Arguments.

(** The transcendental part of [num_traits::Float] the scale functions use. *)
Class FloatMath (F : Type) := {
  flog10 : F -> F;
  fpowf : F -> F -> F;
  fasin : F -> F;
  fsin : F -> F;
  fpi : F;                                 (* F::from(std::f64::consts::PI).unwrap() *)
}.

Section Scale.
  Context {F : Type} {FO : FloatOps F}.
  Notation "x + y" := (fadd x y). Notation "x - y" := (fsub x y).
  Notation "x * y" := (fmul x y). Notation "x / y" := (fdiv x y).
  Definition fk (z : Z) : F := fofZ z.

  (** scale_functions.rs:4-9 and 11-16 *)
  Definition k0 (quantile comp_factor _n : F) : F := (quantile * comp_factor) / fk 2.
  Definition inv_k0 (scale comp_factor _n : F) : F := (scale * fk 2) / comp_factor.

  Context {FM : FloatMath F}.

  (** 18-24 and 26-33 *)
  Definition k1 (quantile comp_factor _n : F) : F :=
    (comp_factor / (fk 2 * fpi)) * fasin (fk 2 * quantile - fk 1).
  Definition inv_k1 (scale comp_factor _n : F) : F :=
    (fk 1 + fsin (fk 2 * fpi * scale / comp_factor)) / fk 2.

  (** 35-41 and 43-52 *)
  Definition k2 (quantile comp_factor n : F) : F :=
    (comp_factor / (fk 4 * flog10 (n / comp_factor) + fk 24)) * flog10 (quantile / (fk 1 - quantile)).
  Definition inv_k2 (scale comp_factor n : F) : F :=
    let x := fpowf (fk 10) ((scale * (fk 4 * flog10 (n / comp_factor) + fk 24)) / comp_factor) in
    x / (fk 1 + x).

  (** 54-60 and 62-67 *)
  Definition k2_asym (quantile comp_factor n : F) : F :=
    let effective_quantile := quantile * fhalf in
    k2 effective_quantile (comp_factor * fk 2) n.
  Definition inv_k2_asym (scale comp_factor n : F) : F := inv_k2 scale (comp_factor * fk 2) n * fk 2.

  (** 69-78 and 80-91 *)
  Definition k2n (quantile comp_factor n : F) : F :=
    let mod_comp_factor := comp_factor / fk 10 * fpowf (flog10 n) (fk 2) in
    (mod_comp_factor / (fk 4 * flog10 (n / mod_comp_factor) + fk 24)) * flog10 (quantile / (fk 1 - quantile)).
  Definition inv_k2n (scale comp_factor n : F) : F :=
    let mod_comp_factor := comp_factor / fk 10 * fpowf (flog10 n) (fk 2) in
    let x := fpowf (fk 10) ((scale * (fk 4 * flog10 (n / mod_comp_factor) + fk 24)) / mod_comp_factor) in
    x / (fk 1 + x).

  (** 93-103 and 105-120 *)
  Definition k3 (quantile comp_factor n : F) : F :=
    let factor := if fle quantile fhalf then flog10 (fk 2 * quantile)
                  else fneg (flog10 (fk 2 * (fk 1 - quantile))) in
    (comp_factor / (fk 4 * flog10 (n / comp_factor) + fk 21)) * factor.
  Definition inv_k3 (scale comp_factor n : F) : F :=
    let pow := (scale * (fk 4 * flog10 (n / comp_factor) + fk 21)) / comp_factor in
    let q_low := fpowf (fk 10) pow / fk 2 in
    let q_high := (fk 2 - fpowf (fk 10) (fneg pow)) / fk 2 in
    if fgt (fabs (fhalf - q_low)) (fabs (fhalf - q_high)) then q_high else q_low.
End Scale.

(** The exact instance. [powf] is only modelled for the two uses the code makes of it: exponent 2 (any base), and a base
    above 1; other arguments give NaN here. pi is the exact real number. *)
Local Open Scope R_scope.
Definition log10 (r : R) : R := ln r / ln 10.
Definition pow10 (r : R) : R := Rpower 10 r.

Definition xlog10 (x : xr) : xr :=
  match x with
  | XNaN | XInf true => XNaN
  | XInf false => XInf false
  | XFin r => match rsign r with Some true => XNaN | None => XInf true | Some false => XFin (log10 r) end
  end.
Definition xpowf (x y : xr) : xr :=
  if feq y (XFin 2) then xmul x x else
  match x with
  | XFin b => if flt (XFin 1) (XFin b) then
                match y with
                | XFin e => XFin (Rpower b e) | XInf true => XFin 0 | XInf false => XInf false | XNaN => XNaN end
              else XNaN
  | _ => XNaN
  end.
Definition xasin (x : xr) : xr :=
  match x with XFin r => if Rle_bool (-1) r && Rle_bool r 1 then XFin (asin r) else XNaN | _ => XNaN end.
Definition xsin (x : xr) : xr := match x with XFin r => XFin (sin r) | _ => XNaN end.

#[global] Instance xr_math : FloatMath xr := {
  flog10 := xlog10; fpowf := xpowf; fasin := xasin; fsin := xsin; fpi := XFin PI;
}.
