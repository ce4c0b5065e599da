(** * C126: documented defaults of the dynamics *)
From Coq Require Import String List Bool.
From Verif Require Import Np Ctor CtorSpec DefaultSpec DefaultFacts.
Import ListNotations.
Open Scope string_scope.
Open Scope list_scope.

(** C126. A parameter documented by ParticleDynamic or CBXDynamic has the documented default in every dynamic, whatever
    other keywords are given; the noise of CBS is the exception. *)
Theorem C126_base : forall U c p v, dynamic c -> In (p, v) documented_base -> ~ (c = CBS /\ p = "noise") -> default_is (U:=U) c p (Lib v).
Proof. exact @base_defaults. Qed.
Print Assumptions C126_base.
Theorem C126_own : forall U, default_is (U:=U) PolarCBO "kernel_factor_mode" (Lib "'alpha'") /\ default_is (U:=U) AdamCBO "betas" (Lib "(0.9, 0.99)") /\ default_is (U:=U) AdamCBO "eps" (Lib "1e-8") /\
  default_is (U:=U) HyperSurfaceCBO "noise" (Lib "'isotropic'").
Proof. exact @own_defaults. Qed.
Print Assumptions C126_own.
Theorem C126_cbo : forall U c, In c [CBO; CBOMemory; PSO] -> forall p v, In (p, v) [("alpha", "1.0"); ("lamda", "1.0")] -> default_is (U:=U) c p (Lib v).
Proof. exact @cbo_defaults. Qed.
Print Assumptions C126_cbo.
(** A dynamic has at most one default for a parameter. *)
Theorem C126_unique : forall U c p (v w : val U), dynamic c -> default_is c p v -> default_is c p w -> v = w.
Proof. exact @default_unique. Qed.
Print Assumptions C126_unique.
Example C126_unique_example : dynamic PSO /\ exists r, call (U:=nat) (mro PSO) [("dt", User 1)] = Ok r /\ received PSO r "m" = Lib "0.001" /\ received PSO r "sigma" = Lib "5.1" /\ received PSO r "dt" = User 1.
Proof. exact (conj (conj (fun H => eq_ind PSO (fun c => match c with PSO => True | _ => False end) I _ H) (conj (fun H => eq_ind PSO (fun c => match c with PSO => True | _ => False end) I _ H) (fun H => eq_ind PSO (fun c => match c with PSO => True | _ => False end) I _ H)))
  (ex_intro _ _ (conj eq_refl (conj eq_refl (conj eq_refl eq_refl))))). Qed.

(** C126, full statement refuted: 14 of the defaults in the docstrings of CBO, CBOMemory and PSO are not the defaults, *)
Theorem C126_documented_refuted : forall c p v, In (c, p, v) (map (fun q => (CBO, fst q, snd q)) [("dt", "0.1"); ("sigma", "1.0"); ("noise", "normal_noise(dt=0.1)")] ++
    map (fun q => (CBOMemory, fst q, snd q)) [("dt", "0.1"); ("sigma", "1.0"); ("noise", "normal_noise(dt=0.1)"); ("lamda_memory", "1.0"); ("sigma_memory", "1.0")] ++
    map (fun q => (PSO, fst q, snd q)) [("dt", "0.1"); ("sigma", "1.0"); ("noise", "normal_noise(dt=0.1)"); ("m", "0.1"); ("lamda_memory", "1.0"); ("sigma_memory", "1.0")]) ->
  In (p, v) (documented c) /\ forall U, ~ default_is (U:=U) c p (Lib v).
Proof. exact documented_refuted. Qed.
Print Assumptions C126_documented_refuted.
(** which are these: *)
Theorem C126_actual : forall U c, In c [CBO; CBOMemory; PSO] -> default_is (U:=U) c "dt" (Lib "0.01") /\ default_is (U:=U) c "sigma" (Lib "5.1") /\ default_is (U:=U) c "noise" (Lib "'isotropic'").
Proof. exact @cbo_actual. Qed.
Print Assumptions C126_actual.
Theorem C126_memory_actual : forall U c, In c [CBOMemory; PSO] -> default_is (U:=U) c "lamda_memory" (Lib "0.4") /\ default_is (U:=U) c "sigma_memory" PyNone.
Proof. exact @memory_actual. Qed.
Print Assumptions C126_memory_actual.
Theorem C126_pso_actual : forall U, default_is (U:=U) PSO "m" (Lib "0.001").
Proof. exact @pso_actual. Qed.
Print Assumptions C126_pso_actual.
(** and the documented parameters y and v (initial memories and velocities) raise TypeError. *)
Theorem C126_keywords_refuted : forall U c p (kw : kwargs U), In (c, p) [(CBOMemory, "y"); (PSO, "y"); (PSO, "v")] -> In p (keys kw) -> build (mro c) kw = Err TypeError.
Proof. exact @no_memory_keyword. Qed.
Print Assumptions C126_keywords_refuted.
Example C126_keywords_example : In (PSO, "v") [(CBOMemory, "y"); (PSO, "y"); (PSO, "v")] /\ In "v" (keys (U:=nat) [("dt", User 1); ("v", User 2)]).
Proof. exact (conj (or_intror (or_intror (or_introl eq_refl))) (or_intror (or_introl eq_refl))). Qed.
