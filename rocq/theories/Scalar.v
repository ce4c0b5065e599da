(** * Scalars with IEEE special values

    NumPy arrays hold floats.  A float is modelled as an exact number of a
    field [K], one of the two infinities, or NaN.  Comparison and arithmetic on
    the special values follow IEEE-754.
    Simplifications: arithmetic on finite values is exact (no rounding, no
    overflow); there is only one zero, so [x / 0] has the sign of [x]. *)

From Coq Require Import ZArith Bool Reals Lia Lra.

(** The operations the model needs on finite numbers. *)
Class KOps (K : Type) : Type := {
  k0 : K;
  k1 : K;
  kadd : K -> K -> K;
  ksub : K -> K -> K;
  kmul : K -> K -> K;
  kdiv : K -> K -> K;
  kopp : K -> K;
  kltb : K -> K -> bool;
  kofnat : nat -> K }.

(** The comparison is a strict total order. *)
Class KOrd (K : Type) {O : KOps K} : Prop := {
  kltb_irrefl : forall a, kltb a a = false;
  kltb_trans : forall a b c, kltb a b = true -> kltb b c = true -> kltb a c = true;
  kltb_total : forall a b, kltb a b = false -> kltb b a = false -> a = b }.

Inductive fl (K : Type) : Type :=
| Fin (k : K)
| PInf
| NInf
| NaN.
Arguments Fin {K} k.
Arguments PInf {K}.
Arguments NInf {K}.
Arguments NaN {K}.

Section Ops.
  Context {K : Type} {O : KOps K}.

  Definition is_nan (a : fl K) : bool := match a with NaN => true | _ => false end.
  Definition is_fin (a : fl K) : bool := match a with Fin _ => true | _ => false end.

  (** [a < b]; false as soon as a NaN is involved. *)
  Definition fltb (a b : fl K) : bool :=
    match a, b with
    | NaN, _ | _, NaN => false
    | Fin x, Fin y => kltb x y
    | PInf, _ => false
    | _, PInf => true
    | NInf, NInf => false
    | NInf, Fin _ => true
    | Fin _, NInf => false
    end.

  (** [a <= b]; false as soon as a NaN is involved. *)
  Definition fleb (a b : fl K) : bool :=
    match a, b with
    | NaN, _ | _, NaN => false
    | _, _ => negb (fltb b a)
    end.

  Definition fopp (a : fl K) : fl K :=
    match a with Fin x => Fin (kopp x) | PInf => NInf | NInf => PInf | NaN => NaN end.

  Definition fadd (a b : fl K) : fl K :=
    match a, b with
    | NaN, _ | _, NaN => NaN
    | Fin x, Fin y => Fin (kadd x y)
    | PInf, NInf | NInf, PInf => NaN
    | PInf, _ | _, PInf => PInf
    | NInf, _ | _, NInf => NInf
    end.

  Definition fsub (a b : fl K) : fl K :=
    match a, b with
    | NaN, _ | _, NaN => NaN
    | Fin x, Fin y => Fin (ksub x y)
    | PInf, PInf | NInf, NInf => NaN
    | PInf, _ | _, NInf => PInf
    | NInf, _ | _, PInf => NInf
    end.

  (** infinity with the sign of [x], NaN for zero *)
  Definition inf_sign (x : K) (pos : bool) : fl K :=
    if kltb k0 x then (if pos then PInf else NInf)
    else if kltb x k0 then (if pos then NInf else PInf)
    else NaN.

  Definition fmul (a b : fl K) : fl K :=
    match a, b with
    | NaN, _ | _, NaN => NaN
    | Fin x, Fin y => Fin (kmul x y)
    | PInf, PInf | NInf, NInf => PInf
    | PInf, NInf | NInf, PInf => NInf
    | Fin x, PInf | PInf, Fin x => inf_sign x true
    | Fin x, NInf | NInf, Fin x => inf_sign x false
    end.

  Definition k_is0 (x : K) : bool := negb (kltb x k0) && negb (kltb k0 x).

  Definition fdiv (a b : fl K) : fl K :=
    match a, b with
    | NaN, _ | _, NaN => NaN
    | Fin x, Fin y => if k_is0 y then inf_sign x true else Fin (kdiv x y)
    | Fin _, _ => Fin k0
    | PInf, Fin y => if k_is0 y then PInf else inf_sign y true
    | NInf, Fin y => if k_is0 y then NInf else inf_sign y false
    | _, _ => NaN
    end.

  (** [np.minimum] / [np.maximum]: NaN if one argument is NaN. *)
  Definition fmin (a b : fl K) : fl K :=
    if is_nan a || is_nan b then NaN else if fltb b a then b else a.
  Definition fmax (a b : fl K) : fl K :=
    if is_nan a || is_nan b then NaN else if fltb a b then b else a.
End Ops.

#[export] Instance KOps_Z : KOps Z := {|
  k0 := 0%Z; k1 := 1%Z; kadd := Z.add; ksub := Z.sub; kmul := Z.mul; kdiv := Z.div;
  kopp := Z.opp; kltb := Z.ltb; kofnat := Z.of_nat |}.

#[export] Instance KOrd_Z : KOrd Z.
Proof.
  split; cbn; intros.
  - apply Z.ltb_irrefl.
  - apply Z.ltb_lt in H. apply Z.ltb_lt in H0. apply Z.ltb_lt. lia.
  - apply Z.ltb_ge in H. apply Z.ltb_ge in H0. lia.
Qed.

Definition Rltb (a b : R) : bool := if Rlt_dec a b then true else false.

#[export] Instance KOps_R : KOps R := {|
  k0 := 0%R; k1 := 1%R; kadd := Rplus; ksub := Rminus; kmul := Rmult; kdiv := Rdiv;
  kopp := Ropp; kltb := Rltb; kofnat := INR |}.

Lemma Rltb_true : forall a b, Rltb a b = true <-> (a < b)%R.
Proof. intros. unfold Rltb. destruct (Rlt_dec a b); split; auto; discriminate. Qed.
Lemma Rltb_false : forall a b, Rltb a b = false <-> (b <= a)%R.
Proof.
  intros. unfold Rltb. destruct (Rlt_dec a b); split; auto; try discriminate.
  - intros; exfalso; lra.
  - intros; lra.
Qed.

#[export] Instance KOrd_R : KOrd R.
Proof.
  split; cbn; intros.
  - apply Rltb_false. lra.
  - apply Rltb_true in H. apply Rltb_true in H0. apply Rltb_true. lra.
  - apply Rltb_false in H. apply Rltb_false in H0. lra.
Qed.
