(** * Facts about squeezing objectives *)
From Coq Require Import String List Arith Bool Lia.
From Verif Require Import Scalar Np NpFacts Nd Objective ObjSpec ObjFacts Squeeze.
Import ListNotations.
Open Scope nat_scope.
Open Scope list_scope.

Section Facts.
  Context {A B : Type}.
  Lemma squeezed_3 : forall (g : list A -> B) x M N d, shape x = [M; N; d] ->
    squeezed g x = Ok (mknd (squeeze_shape [M; N]) (fun i => g (point x d (unsqueeze [M; N] i)))).
  Proof. intros g x M N d H. unfold squeezed. rewrite H. reflexivity. Qed.
  (** '3D': usable exactly with several runs and several particles *)
  Theorem squeezed_check_3D : forall (g : list A -> B) x M N d nfe, shape x = [M; N; d] ->
    check_f_dims (apply_kind K3D (squeezed g)) M N true x nfe = if (M =? 1) || (N =? 1) then Err ValueError else Ok (map (fun n => n + N) nfe).
  Proof.
    intros g x M N d nfe H. unfold check_f_dims. cbn [apply_kind]. rewrite (squeezed_3 g x M N d H). cbn [bind shape]. unfold squeeze_shape. cbn [filter].
    destruct (Nat.eqb_spec M 1) as [->|HM]; destruct (Nat.eqb_spec N 1) as [->|HN]; cbn [negb orb];
      match goal with |- (if ?e then _ else _) = _ => destruct e as [E|E] end; auto; try discriminate; try congruence.
  Qed.
  Theorem squeezed_3D_pointwise : forall (g : list A -> B) x M N d, shape x = [M; N; d] -> M <> 1 -> N <> 1 -> pointwise (apply_kind K3D (squeezed g)) g x M N d.
  Proof.
    intros g x M N d H HM HN. unfold pointwise. cbn [apply_kind]. rewrite (squeezed_3 g x M N d H). eexists. split; [reflexivity|]. unfold squeeze_shape. cbn [filter shape get unsqueeze].
    apply Nat.eqb_neq in HM, HN. rewrite HM, HN. cbn. auto.
  Qed.
  (** '1D', the default: always pointwise *)
  Theorem squeezed_1D : forall (g : list A -> B) d, objective_1D (squeezed g) d g.
  Proof.
    intros g d. exists []. split; auto. intros v Hv. unfold squeezed. rewrite Hv. eexists. split; [reflexivity|]. split; [reflexivity|]. intros i _ _. reflexivity.
  Qed.
End Facts.
