(** * Sizes of the slices of a flat parameter vector *)
From Coq Require Import String List Arith Bool Lia.
From Verif Require Import Np NpFacts Dispatch Torch TorchFacts.
Import ListNotations.
Open Scope nat_scope.
Open Scope list_scope.

(** the multi-indices of an array of the given shape, in row-major order *)
Fixpoint positions (sh : list nat) : list (list nat) :=
  match sh with [] => [[]] | n :: sh' => flat_map (fun i => map (cons i) (positions sh')) (seq 0 n) end.

Lemma positions_length : forall sh, length (positions sh) = numel sh.
Proof.
  induction sh as [|n sh IH]; auto. cbn [positions]. unfold numel in *. cbn [fold_right]. rewrite <- IH.
  assert (G : forall a, length (flat_map (fun i => map (cons i) (positions sh)) (seq a n)) = n * length (positions sh)).
  { induction n as [|n IHn]; intros a; cbn; auto. rewrite app_length, map_length, IHn. auto. }
  apply G.
Qed.
Lemma positions_spec : forall sh l, In l (positions sh) <-> Forall2 lt l sh.
Proof.
  induction sh as [|n sh IH]; intros l; cbn [positions].
  - split; [intros [<-|[]]; constructor|]. intros H. inversion H. left; auto.
  - rewrite in_flat_map. split.
    + intros (i & Hi & Hl). apply in_seq in Hi. apply in_map_iff in Hl. destruct Hl as (l' & <- & Hl). constructor; [lia|]. apply IH; auto.
    + intros H. inversion H as [|i n' l' sh' Hi Hl]; subst. exists i. split; [apply in_seq; lia|]. apply in_map_iff. exists l'. split; auto. apply IH; auto.
Qed.

Lemma slices_sized : forall A (models : list (module A)) names pnames pprop, same_architecture models names ->
  NoDup pnames -> incl pnames (map fst names) -> get_param_properties models (Some pnames) = Ok pprop ->
  forall p sh a b, In (p, (sh, (a, b))) pprop -> lookup names p = Some sh /\ b = a + length (positions sh).
Proof.
  intros A models names pnames pprop SA ND Inc HP p sh a b Hin.
  destruct (stack_lookup models names SA) as (st & Est & Fst & Hst).
  destruct (sel_exists names pnames Inc) as (sel & Esel & Hsel).
  unfold get_param_properties in HP. rewrite Est in HP. cbn [bind] in HP. rewrite <- Esel in HP. rewrite pp_loop_spec in HP.
  - injection HP as <-. cbn [app last_end rev] in Hin. apply layout_range in Hin. rewrite positions_length. destruct Hin as (I & _ & E & _). split; [apply Hsel; exact I | exact E].
  - intros q sh0 Hq. destruct (Hst q sh0 (Hsel _ _ Hq)) as (rows & E & _). eauto.
  - cbn. rewrite Esel. auto.
Qed.
