(** * Specification: documented defaults of the parameters of the dynamics, typed from the docstrings *)
From Coq Require Import String List Bool.
From Verif Require Import Np Ctor CtorSpec.
Import ListNotations.
Open Scope string_scope.
Open Scope list_scope.

(** the class's own docstring *)
Definition documented (c : cname) : list (string * string) :=
  match c with
  | CBO => (* cbo.py:19-28 *)
      [("dt", "0.1"); ("lamda", "1.0"); ("alpha", "1.0"); ("noise", "normal_noise(dt=0.1)"); ("sigma", "1.0")]
  | CBOMemory => (* cbo_memory.py:24-37 *)
      [("dt", "0.1"); ("alpha", "1.0"); ("lamda", "1.0"); ("noise", "normal_noise(dt=0.1)"); ("sigma", "1.0"); ("lamda_memory", "1.0"); ("sigma_memory", "1.0")]
  | PSO => (* pso.py:27-44; gamma, 1 - m, is not a constant *)
      [("dt", "0.1"); ("alpha", "1.0"); ("m", "0.1"); ("lamda", "1.0"); ("noise", "normal_noise(dt=0.1)"); ("sigma", "1.0"); ("lamda_memory", "1.0"); ("sigma_memory", "1.0")]
  | PolarCBO => [("kernel_factor_mode", "'alpha'")] (* polarcbo.py:176 *)
  | AdamCBO => [("betas", "(0.9, 0.99)"); ("eps", "1e-8")] (* adamcbo.py:18-20 *)
  | HyperSurfaceCBO => [("noise", "'isotropic'")] (* hypersurfacecbo.py:101 *)
  | _ => []
  end.
(** the docstrings of the base classes, pdyn.py:606-624 and 86-122; functions are named by their source *)
Definition documented_base : list (string * string) :=
  [("noise", "'isotropic'"); ("dt", "0.01"); ("alpha", "1.0"); ("sigma", "5.1"); ("lamda", "1.0"); ("correction", "'no_correction'"); ("save_consensus_eval_points", "False"); ("correction_eps", "1e-3");
   ("f_dim", "'1D'"); ("check_f_dims", "True"); ("M", "1"); ("N", "20"); ("verbosity", "1")].

Section Received.
  Context {U : Type}.
  (** the value with which parameter [p] of a dynamic of class [c] arrives in the class that stores it *)
  Definition received (c : cname) (r : list (cname * (string -> val U))) (p : string) : val U :=
    if mem p (extra_names c) then match r with (_, a) :: _ => a p | [] => PyNone end
    else at_class (if mem p cbx_names then CBXDynamic else ParticleDynamic) r p.
  (** the parameter [p] of [c] has the default [v]: this is what arrives however the other parameters are chosen *)
  Definition default_is (c : cname) (p : string) (v : val U) : Prop :=
    forall (kw : kwargs U) r, call (mro c) kw = Ok r -> assoc p kw = None -> received c r p = v.
End Received.
