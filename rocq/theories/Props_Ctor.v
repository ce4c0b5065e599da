(** * C122: constructors and torch versions of the dynamics *)
From Coq Require Import String List Bool.
From Verif Require Import Np Ctor CtorSpec CtorFacts ExCtor.
Import ListNotations.
Open Scope string_scope.
Open Scope list_scope.

(** C122. The constructor of every dynamic accepts exactly the keywords documented for it and its base classes, in
    whatever number and order; any other keyword raises TypeError. *)
Theorem C122_accepts : forall U c (kw : kwargs U), dynamic c ->
  ((exists o, build (mro c) kw = Ok o) <-> forall k, In k (keys kw) -> accepted c k) /\
  ((exists o, build (mro c) kw = Ok o) \/ build (mro c) kw = Err TypeError).
Proof. exact @numpy_accepts. Qed.
Print Assumptions C122_accepts.
Example C122_accepts_ex : exists o, build (U:=nat) (mro PolarCBO) [("kappa", User 1); ("dt", User 2); ("seed", User 3); ("M", User 4)] = Ok o /\
  o_cons o = Lib "compute_polar_consensus" /\ o_sampler o = OwnRng (User 3) /\ build (U:=nat) (mro PolarCBO) [("kapa", User 1)] = Err TypeError.
Proof. exact ctor_case. Qed.

(** C122. REFUTED: every dynamic lets the user replace the consensus function. *)
Theorem C122_consensus_refuted :
  ~ (forall c (v : val nat), dynamic c -> exists o, build (mro c) [("compute_consensus", v)] = Ok o).
Proof. exact hyper_consensus_refuted. Qed.
Print Assumptions C122_consensus_refuted.

(** C122. The torch version accepts the same keywords and a device. *)
Theorem C122_torch_accepts : forall U c (kw : kwargs U), dynamic c ->
  ((exists o, build (mro_torch c) kw = Ok o) <-> forall k, In k (keys kw) -> k = "device" \/ accepted c k) /\
  ((exists o, build (mro_torch c) kw = Ok o) \/ build (mro_torch c) kw = Err TypeError).
Proof. exact @torch_accepts. Qed.
Print Assumptions C122_torch_accepts.
Example C122_torch_accepts_ex : exists o, build (U:=nat) (mro_torch RegCombinationCBO) [("nu", User 1); ("device", User 2)] = Ok o /\
  o_post o = Lib "post_process_default_torch()" /\ o_sampler o = TorchGlobal (User 2).
Proof. exact ctor_torch_case. Qed.

(** C122. Every shared parameter reaches the class that uses it with the user's value, or with the default. *)
Theorem C122_values : forall U c (kw : kwargs U) r p, dynamic c -> call (mro c) kw = Ok r -> In p (cbx_names ++ particle_names) ->
  at_class (if mem p cbx_names then CBXDynamic else ParticleDynamic) r p = value_of c kw p.
Proof. exact @numpy_values. Qed.
Print Assumptions C122_values.
Theorem C122_torch_values : forall U c (kw : kwargs U) r p, dynamic c -> call (mro_torch c) kw = Ok r -> In p (cbx_names ++ particle_names) ->
  at_class (if mem p cbx_names then CBXDynamic else ParticleDynamic) r p = value_of c kw p.
Proof. exact @torch_values. Qed.
Print Assumptions C122_torch_values.

(** C122. The functions a NumPy dynamic works with: the user's, or NumPy's; the sampler is made from the seed. *)
Theorem C122_numpy : forall U c (kw : kwargs U) o, dynamic c -> build (mro c) kw = Ok o ->
  o_copy o = or_default (value_of c kw "copy") (Lib "np.copy") /\
  o_norm o = or_default (value_of c kw "norm") (Lib "np.linalg.norm") /\
  o_sampler o = (match value_of c kw "sampler" with PyNone => OwnRng (value_of c kw "seed") | v => Given v end) /\
  o_post o = or_default (value_of c kw "post_process")
               (match c with RegCombinationCBO => Lib "post_process_default(copy_nan_to_num=True)" | _ => Lib "post_process_default()" end) /\
  o_cons o = or_default (value_of c kw "compute_consensus") (Lib "compute_consensus_default()") /\
  o_x o = None.
Proof. exact @numpy_outcome. Qed.
Print Assumptions C122_numpy.

(** C122. The functions of a torch version: the user's, or torch's; the sampler uses torch's global generator. *)
Theorem C122_torch : forall U c (kw : kwargs U) o, dynamic c -> build (mro_torch c) kw = Ok o ->
  o_copy o = or_default (value_of c kw "copy") (Lib "torch.clone") /\
  o_norm o = or_default (value_of c kw "norm") (Lib "norm_torch") /\
  o_sampler o = (match value_of c kw "sampler" with
                 | PyNone => TorchGlobal (match assoc "device" kw with Some v => v | None => Lib "'cpu'" end)
                 | v => Given v
                 end) /\
  o_post o = or_default (value_of c kw "post_process") (Lib "post_process_default_torch()") /\
  o_cons o = or_default (value_of c kw "compute_consensus") (Lib "compute_consensus_torch") /\
  o_x o = Some (Lib "'cpu'").
Proof. exact @torch_outcome. Qed.
Print Assumptions C122_torch.

(** C122. REFUTED: the torch version of a dynamic computes its consensus with the torch function. *)
Theorem C122_torch_consensus_refuted :
  ~ (forall c (kw : kwargs nat) o, dynamic c -> build (mro_torch c) kw = Ok o -> assoc "compute_consensus" kw = None -> o_cons o = Lib "compute_consensus_torch").
Proof. exact torch_consensus_refuted. Qed.
Print Assumptions C122_torch_consensus_refuted.
(** All do, except PolarCBO and HyperSurfaceCBO, which keep their NumPy functions. *)
Theorem C122_torch_consensus : forall U c (kw : kwargs U) o, dynamic c -> build (mro_torch c) kw = Ok o -> assoc "compute_consensus" kw = None ->
  o_cons o = match c with
             | PolarCBO => Lib "compute_polar_consensus"
             | HyperSurfaceCBO => Lib "compute_consensus_rescale"
             | _ => Lib "compute_consensus_torch"
             end.
Proof. exact @torch_consensus. Qed.
Print Assumptions C122_torch_consensus.

(** C122. REFUTED: the seed changes the sampler of a torch version. *)
Theorem C122_torch_seed_refuted :
  ~ (forall c (kw : kwargs nat) o s o', dynamic c -> build (mro_torch c) kw = Ok o -> assoc "sampler" kw = None -> assoc "seed" kw = None ->
       build (mro_torch c) (("seed", User s) :: kw) = Ok o' -> o_sampler o' <> o_sampler o).
Proof. exact torch_seed_refuted. Qed.
Print Assumptions C122_torch_seed_refuted.
(** The seed is accepted and changes nothing: copy, norm, sampler, post-processing, consensus and device stay the same. *)
Theorem C122_torch_seed : forall U c (kw : kwargs U) s o, dynamic c -> build (mro_torch c) kw = Ok o ->
  build (mro_torch c) (("seed", s) :: kw) = Ok o.
Proof. exact @torch_seed. Qed.
Print Assumptions C122_torch_seed.

(** C122. REFUTED: particles drawn for a torch version are on the device the user asked for. *)
Theorem C122_torch_device_refuted :
  ~ (forall c (kw : kwargs nat) o dev, dynamic c -> build (mro_torch c) kw = Ok o -> assoc "device" kw = Some dev -> o_x o = Some dev).
Proof. exact torch_device_refuted. Qed.
Print Assumptions C122_torch_device_refuted.
