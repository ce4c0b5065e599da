(** * Constructors: accepted keywords, values and array functions (specification) *)
From Coq Require Import String List Bool.
From Verif Require Import Np Ctor.
Import ListNotations.
Open Scope string_scope.
Open Scope list_scope.

(** the classes a user instantiates *)
Definition dynamic (c : cname) : Prop := c <> ParticleDynamic /\ c <> CBXDynamic /\ c <> TorchDyn.

(** the documented parameters that all of them share ... *)
Definition particle_names : list string :=
  ["f_dim"; "check_f_dims"; "x"; "M"; "N"; "d"; "max_it"; "term_criteria"; "track_args"; "verbosity"; "copy"; "norm"; "sampler"; "post_process"; "seed"].
Definition cbx_names : list string :=
  ["noise"; "batch_args"; "dt"; "alpha"; "sigma"; "lamda"; "correction"; "correction_eps"; "compute_consensus"; "save_consensus_eval_points"].
(** ... and those of each class *)
Definition extra_names (c : cname) : list string :=
  match c with
  | CBOMemory => ["lamda_memory"; "sigma_memory"]
  | PSO => ["m"; "gamma"; "lamda_memory"; "sigma_memory"]
  | CBS => ["mode"]
  | PolarCBO => ["kernel"; "kappa"; "kernel_factor_mode"]
  | MirrorCBO => ["mirrormap"]
  | AdamCBO => ["betas"; "eps"]
  | DriftConstrainedCBO => ["constraints"; "eps"; "eps_indep"; "sigma_indep"]
  | HyperSurfaceCBO => ["sdf"]
  | RegCombinationCBO => ["constraints"; "eps"; "nu"]
  | _ => []
  end.
Definition accepted (c : cname) (k : string) : Prop :=
  In k (extra_names c ++ cbx_names ++ particle_names) /\ ~ (c = HyperSurfaceCBO /\ k = "compute_consensus").

(** the default of a shared parameter *)
Definition default_of {U} (c : cname) (p : string) : val U :=
  match c, p with
  | CBS, "noise" => Lib "'covariance'"
  | CBS, "track_args" => Lib "{'names':[]}"
  | PolarCBO, "compute_consensus" => Lib "compute_polar_consensus"
  | HyperSurfaceCBO, "compute_consensus" => Lib "compute_consensus_rescale"
  | _, "f_dim" => Lib "'1D'"
  | _, "check_f_dims" => Lib "True"
  | _, "M" => Lib "1"
  | _, "N" => Lib "20"
  | _, "max_it" => Lib "1000"
  | _, "verbosity" => Lib "1"
  | _, "noise" => Lib "'isotropic'"
  | _, "dt" => Lib "0.01"
  | _, "alpha" => Lib "1.0"
  | _, "sigma" => Lib "5.1"
  | _, "lamda" => Lib "1.0"
  | _, "correction" => Lib "'no_correction'"
  | _, "correction_eps" => Lib "1e-3"
  | _, "save_consensus_eval_points" => Lib "False"
  | _, _ => PyNone
  end.
(** the value of a shared parameter: what the user gave, or the default; None means the default where a class says so *)
Definition value_of {U} (c : cname) (kw : kwargs U) (p : string) : val U :=
  match assoc p kw with
  | None => default_of c p
  | Some PyNone => match c, p with
                   | CBS, "track_args" | PolarCBO, "compute_consensus" => default_of c p
                   | _, _ => PyNone
                   end
  | Some v => v
  end.
