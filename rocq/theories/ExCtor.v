(** * Constructors: what torch versions use, and counterexamples *)
From Coq Require Import String List Bool.
From Verif Require Import Np NpFacts Ctor CtorSpec CtorFacts.
Import ListNotations.
Open Scope string_scope.
Open Scope list_scope.

Section Outcome.
  Context {U : Type}.
  Notation val := (val U).
  Notation kwargs := (kwargs U).

  Definition sampler_of (kw : kwargs) (c : cname) (d : sampler U) : sampler U :=
    match value_of c kw "sampler" with PyNone => d | v => Given v end.

  Lemma in_names : forall p, mem p (cbx_names ++ particle_names) = true -> In p (cbx_names ++ particle_names).
  Proof. intros p H. apply mem_In. exact H. Qed.

  Theorem numpy_outcome : forall c (kw : kwargs) o, dynamic c -> build (mro c) kw = Ok o ->
    o_copy o = or_default (value_of c kw "copy") (Lib "np.copy") /\
    o_norm o = or_default (value_of c kw "norm") (Lib "np.linalg.norm") /\
    o_sampler o = sampler_of kw c (OwnRng (value_of c kw "seed")) /\
    o_post o = or_default (value_of c kw "post_process")
                 (match c with RegCombinationCBO => Lib "post_process_default(copy_nan_to_num=True)" | _ => Lib "post_process_default()" end) /\
    o_cons o = or_default (value_of c kw "compute_consensus") (Lib "compute_consensus_default()") /\
    o_x o = None.
  Proof.
    intros c kw o D H. unfold build in H. destruct (call (mro c) kw) as [r|] eqn:E; [|discriminate]. cbn [bind] in H.
    assert (V : forall p, mem p (cbx_names ++ particle_names) = true -> at_class (if mem p cbx_names then CBXDynamic else ParticleDynamic) r p = value_of c kw p)
      by (intros p Hp; apply (numpy_values c kw r p D E); apply in_names; auto).
    pose proof (V "copy" eq_refl) as V1. pose proof (V "norm" eq_refl) as V2. pose proof (V "sampler" eq_refl) as V3.
    pose proof (V "post_process" eq_refl) as V4. pose proof (V "compute_consensus" eq_refl) as V5. pose proof (V "seed" eq_refl) as V6.
    cbn [mem existsb cbx_names String.eqb Ascii.eqb Bool.eqb orb] in V1, V2, V3, V4, V5, V6. clear V.
    injection H as <-. cbn [o_copy o_norm o_sampler o_post o_cons o_x]. rewrite V1, V2, V3, V4, V5, V6. unfold sampler_of.
    destruct D as (D1 & D2 & D3). destruct c; try congruence; repeat split.
  Qed.

  Theorem torch_outcome : forall c (kw : kwargs) o, dynamic c -> build (mro_torch c) kw = Ok o ->
    o_copy o = or_default (value_of c kw "copy") (Lib "torch.clone") /\
    o_norm o = or_default (value_of c kw "norm") (Lib "norm_torch") /\
    o_sampler o = sampler_of kw c (TorchGlobal (match assoc "device" kw with Some v => v | None => Lib "'cpu'" end)) /\
    o_post o = or_default (value_of c kw "post_process") (Lib "post_process_default_torch()") /\
    o_cons o = or_default (value_of c kw "compute_consensus") (Lib "compute_consensus_torch") /\
    o_x o = Some (Lib "'cpu'").
  Proof.
    intros c kw o D H. unfold build in H. destruct (call (mro_torch c) kw) as [r|] eqn:E; [|discriminate]. cbn [bind] in H.
    assert (V : forall p, mem p (cbx_names ++ particle_names) = true -> at_class (if mem p cbx_names then CBXDynamic else ParticleDynamic) r p = value_of c kw p)
      by (intros p Hp; apply (torch_values c kw r p D E); apply in_names; auto).
    pose proof (V "copy" eq_refl) as V1. pose proof (V "norm" eq_refl) as V2. pose proof (V "sampler" eq_refl) as V3.
    pose proof (V "post_process" eq_refl) as V4. pose proof (V "compute_consensus" eq_refl) as V5.
    assert (V6 : at_class TorchDyn r "device" = match assoc "device" kw with Some v => v | None => Lib "'cpu'" end).
    { rewrite (call_value (mro_torch c)) with (kw := kw) by (auto; cbn; auto). reflexivity. }
    cbn [mem existsb cbx_names String.eqb Ascii.eqb Bool.eqb orb] in V1, V2, V3, V4, V5, V6. clear V.
    injection H as <-. cbn [o_copy o_norm o_sampler o_post o_cons o_x]. rewrite V1, V2, V3, V4, V5, V6. unfold sampler_of. repeat split.
  Qed.

  (** the default consensus function of every torch version *)
  Theorem torch_consensus : forall c (kw : kwargs) o, dynamic c -> build (mro_torch c) kw = Ok o -> assoc "compute_consensus" kw = None ->
    o_cons o = match c with
               | PolarCBO => Lib "compute_polar_consensus"
               | HyperSurfaceCBO => Lib "compute_consensus_rescale"
               | _ => Lib "compute_consensus_torch"
               end.
  Proof.
    intros c kw o D H N. destruct (torch_outcome c kw o D H) as (_ & _ & _ & _ & E & _). rewrite E. unfold value_of. rewrite N.
    destruct D as (D1 & D2 & D3). destruct c; try congruence; reflexivity.
  Qed.

  (** the seed reaches no array function of a torch version *)
  Theorem torch_seed : forall c (kw : kwargs) s o, dynamic c -> build (mro_torch c) kw = Ok o -> build (mro_torch c) (("seed", s) :: kw) = Ok o.
  Proof.
    intros c kw s o D H. pose proof (proj1 (proj1 (torch_accepts c kw D)) (ex_intro _ o H)) as A.
    destruct (proj2 (proj1 (torch_accepts c (("seed", s) :: kw) D))) as [o' H'].
    { intros k [<-|Hk]; [|auto]. right. split; [apply mem_In; destruct c; reflexivity|intros [_ Q]; discriminate Q]. }
    rewrite H'. f_equal. destruct (torch_outcome _ _ _ D H) as (A1 & A2 & A3 & A4 & A5 & A6).
    destruct (torch_outcome _ _ _ D H') as (B1 & B2 & B3 & B4 & B5 & B6).
    destruct o as [a1 a2 a3 a4 a5 a6], o' as [b1 b2 b3 b4 b5 b6]. cbn [o_copy o_norm o_sampler o_post o_cons o_x] in *. subst. f_equal; reflexivity.
  Qed.
End Outcome.

(** ** Counterexamples *)
Lemma torch_consensus_refuted :
  ~ (forall c (kw : kwargs nat) o, dynamic c -> build (mro_torch c) kw = Ok o -> assoc "compute_consensus" kw = None -> o_cons o = Lib "compute_consensus_torch").
Proof.
  intros H. destruct (build (U:=nat) (mro_torch PolarCBO) []) as [o|] eqn:E; [|discriminate E].
  specialize (H PolarCBO [] o ltac:(repeat split; discriminate) E eq_refl). injection E as <-. discriminate H.
Qed.
Lemma torch_seed_refuted :
  ~ (forall c (kw : kwargs nat) o s o', dynamic c -> build (mro_torch c) kw = Ok o -> assoc "sampler" kw = None -> assoc "seed" kw = None ->
       build (mro_torch c) (("seed", User s) :: kw) = Ok o' -> o_sampler o' <> o_sampler o).
Proof.
  intros H. destruct (build (U:=nat) (mro_torch CBO) []) as [o|] eqn:E; [|discriminate E].
  assert (D : dynamic CBO) by (repeat split; discriminate).
  exact (H CBO [] o 7 o D E eq_refl eq_refl (torch_seed CBO [] (User 7) o D E) eq_refl).
Qed.
Lemma torch_device_refuted :
  ~ (forall c (kw : kwargs nat) o dev, dynamic c -> build (mro_torch c) kw = Ok o -> assoc "device" kw = Some dev -> o_x o = Some dev).
Proof.
  intros H. destruct (build (U:=nat) (mro_torch CBO) [("device", User 0)]) as [o|] eqn:E; [|discriminate E].
  specialize (H CBO _ o (User 0) ltac:(repeat split; discriminate) E eq_refl). injection E as <-. discriminate H.
Qed.
Lemma post_refuted :
  ~ (forall c c' (kw : kwargs nat) o o', dynamic c -> dynamic c' -> build (mro c) kw = Ok o -> build (mro c') kw = Ok o' -> o_post o = o_post o').
Proof.
  intros H. destruct (build (U:=nat) (mro CBO) []) as [o|] eqn:E; [|discriminate E].
  destruct (build (U:=nat) (mro RegCombinationCBO) []) as [o'|] eqn:E'; [|discriminate E'].
  specialize (H CBO RegCombinationCBO [] o o' ltac:(repeat split; discriminate) ltac:(repeat split; discriminate) E E').
  injection E as <-. injection E' as <-. discriminate H.
Qed.
Lemma hyper_consensus_refuted :
  ~ (forall c (v : val nat), dynamic c -> exists o, build (mro c) [("compute_consensus", v)] = Ok o).
Proof. intros H. destruct (H HyperSurfaceCBO PyNone ltac:(repeat split; discriminate)) as [o E]. discriminate E. Qed.

(** a call that uses parameters of three levels *)
Lemma ctor_case : exists o, build (U:=nat) (mro PolarCBO) [("kappa", User 1); ("dt", User 2); ("seed", User 3); ("M", User 4)] = Ok o /\
  o_cons o = Lib "compute_polar_consensus" /\ o_sampler o = OwnRng (User 3) /\ build (U:=nat) (mro PolarCBO) [("kapa", User 1)] = Err TypeError.
Proof. eexists. repeat split. Qed.
Lemma ctor_torch_case : exists o, build (U:=nat) (mro_torch RegCombinationCBO) [("nu", User 1); ("device", User 2)] = Ok o /\
  o_post o = Lib "post_process_default_torch()" /\ o_sampler o = TorchGlobal (User 2).
Proof. eexists. repeat split. Qed.
