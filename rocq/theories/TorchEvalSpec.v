(** * Specification: networks given by flat vectors *)
From Coq Require Import String List Arith Bool Reals.
From Verif Require Import Np Torch.
Import ListNotations.
Open Scope nat_scope.

(** module [base] with the parameters named in [pnames] taken from [m] *)
Definition graft_of {A} (pnames : list string) (m base g : module A) : Prop :=
  map fst g = map fst base /\
  forall i p t, nth_error g i = Some (p, t) -> (In p pnames -> In (p, t) m) /\ (~ In p pnames -> nth_error base i = Some (p, t)).
(** label i is the first index of a largest score *)
Definition first_max (l : list R) (i : nat) : Prop :=
  i < length l /\ (forall j, j < length l -> (nth j l 0 <= nth i l 0)%R) /\ forall j, j < i -> (nth j l 0 < nth i l 0)%R.
(** k elements of the list satisfy P *)
Inductive tally {B} (P : B -> Prop) : list B -> nat -> Prop :=
| ta_nil : tally P [] 0
| ta_yes : forall a l k, P a -> tally P l k -> tally P (a :: l) (S k)
| ta_no : forall a l k, ~ P a -> tally P l k -> tally P (a :: l) k.
(** all images of a loader with their labels *)
Definition samples {I} (loader : list (list I * list nat)) : list (I * nat) := flat_map (fun q => combine (fst q) (snd q)) loader.
(** each batch has one label per image *)
Definition labelled {I} (loader : list (list I * list nat)) : Prop := Forall (fun q => length (fst q) = length (snd q)) loader.
