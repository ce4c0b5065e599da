(** * Lemmas: defaults that arrive *)
From Coq Require Import String List Bool.
From Verif Require Import Np Ctor CtorSpec CtorFacts DefaultSpec.
Import ListNotations.
Open Scope string_scope.
Open Scope list_scope.

Section Facts.
  Context {U : Type}.
  Lemma call_own : forall c l (kw : kwargs U) r p, call (c :: l) kw = Ok r -> assoc p kw = None ->
    match r with (_, a) :: _ => a p | [] => PyNone end = match assoc p (own (sig_of c)) with Some v => v | None => PyNone end.
  Proof.
    intros c l kw r p H A. cbn [call] in H. destruct (negb (more (sig_of c))).
    - destruct (filter _ kw); [|discriminate]. injection H as <-. rewrite A. reflexivity.
    - destruct (existsb _ _); [discriminate|]. destruct (call l _); [|discriminate]. cbn in H. injection H as <-. rewrite A. reflexivity.
  Qed.
  Lemma default_own : forall c p v, In p (extra_names c) -> hd TorchDyn (mro c) = c -> assoc p (own (sig_of c)) = Some v -> default_is (U:=U) c p v.
  Proof.
    intros c p v Hp Hm HA kw r H A. unfold received. rewrite (proj2 (mem_In _ _) Hp). destruct (mro c) as [|c' l] eqn:E; [destruct c; discriminate|]. cbn in Hm. subst c'.
    rewrite (call_own c l kw r p H A), HA. reflexivity.
  Qed.
  Lemma default_shared : forall c p, dynamic c -> mem p (extra_names c) = false -> In p (cbx_names ++ particle_names) -> default_is (U:=U) c p (default_of c p).
  Proof.
    intros c p Hc He Hp kw r H A. unfold received. rewrite He. rewrite (numpy_values c kw r p Hc H Hp). unfold value_of. rewrite A. reflexivity.
  Qed.
  Lemma dyn : forall c, c <> ParticleDynamic -> c <> CBXDynamic -> c <> TorchDyn -> dynamic c. Proof. intros c; repeat split; auto. Qed.

  Ltac own1 := apply default_own; [cbn; tauto|reflexivity|reflexivity].
  Ltac shr := match goal with |- default_is ?c ?p ?v => change v with (default_of (U:=U) c p); apply default_shared; [split; [|split]; discriminate|reflexivity|cbn; tauto] end.
  Theorem own_defaults : default_is (U:=U) PolarCBO "kernel_factor_mode" (Lib "'alpha'") /\ default_is (U:=U) AdamCBO "betas" (Lib "(0.9, 0.99)") /\ default_is (U:=U) AdamCBO "eps" (Lib "1e-8") /\
    default_is (U:=U) HyperSurfaceCBO "noise" (Lib "'isotropic'").
  Proof. split; [own1|]. split; [own1|]. split; [own1|]. shr. Qed.
  Theorem base_defaults : forall c p v, dynamic c -> In (p, v) documented_base -> ~ (c = CBS /\ p = "noise") -> default_is (U:=U) c p (Lib v).
  Proof.
    intros c p v Hc Hp HN. assert (E : default_of (U:=U) c p = Lib v /\ mem p (extra_names c) = false /\ In p (cbx_names ++ particle_names)).
    { cbn in Hp. destruct Hc as (H1 & H2 & H3). repeat (destruct Hp as [Hp|Hp]; [injection Hp as <- <-; destruct c; try congruence; try (exfalso; apply HN; split; reflexivity); (split; [reflexivity|split; [reflexivity|cbn; tauto]])|]). destruct Hp. }
    destruct E as (E1 & E2 & E3). rewrite <- E1. apply default_shared; auto.
  Qed.
  Theorem cbo_defaults : forall c, In c [CBO; CBOMemory; PSO] -> forall p v, In (p, v) [("alpha", "1.0"); ("lamda", "1.0")] -> default_is (U:=U) c p (Lib v).
  Proof.
    intros c Hc p v Hp. apply base_defaults. cbn in Hc. repeat (destruct Hc as [<-|Hc]; [split; [|split]; discriminate|]). destruct Hc. cbn in *. destruct Hp as [Hp|[Hp|[]]]; injection Hp as <- <-; tauto.
    intros [-> _]. cbn in Hc. repeat (destruct Hc as [Hc|Hc]; [discriminate|]). destruct Hc.
  Qed.
  (** the documentation is wrong about the others *)
  Theorem cbo_actual : forall c, In c [CBO; CBOMemory; PSO] -> default_is (U:=U) c "dt" (Lib "0.01") /\ default_is (U:=U) c "sigma" (Lib "5.1") /\ default_is (U:=U) c "noise" (Lib "'isotropic'").
  Proof. intros c Hc. cbn in Hc. repeat (destruct Hc as [<-|Hc]; [split; [shr|]; split; [shr|]; shr|]). destruct Hc. Qed.
  Theorem memory_actual : forall c, In c [CBOMemory; PSO] -> default_is (U:=U) c "lamda_memory" (Lib "0.4") /\ default_is (U:=U) c "sigma_memory" PyNone.
  Proof. intros c Hc. cbn in Hc. repeat (destruct Hc as [<-|Hc]; [split; own1|]). destruct Hc. Qed.
  Theorem pso_actual : default_is (U:=U) PSO "m" (Lib "0.001").
  Proof. own1. Qed.
  (** initial memories and velocities cannot be given *)
  Theorem no_memory_keyword : forall c p (kw : kwargs U), In (c, p) [(CBOMemory, "y"); (PSO, "y"); (PSO, "v")] -> In p (keys kw) -> build (mro c) kw = Err TypeError.
  Proof.
    intros c p kw Hc Hp. assert (D : dynamic c) by (cbn in Hc; destruct Hc as [Hc|[Hc|[Hc|[]]]]; injection Hc as <- _; split; [|split| |split| |split]; discriminate).
    destruct (numpy_accepts c kw D) as [N1 [N2|N2]]; auto. exfalso. pose proof (proj1 N1 N2 p Hp) as N3. clear N1 N2. destruct N3 as [N2 _].
    cbn in Hc. destruct Hc as [Hc|[Hc|[Hc|[]]]]; injection Hc as <- <-; cbn in N2; repeat (destruct N2 as [N2|N2]; [discriminate|]); destruct N2.
  Qed.
  (** every constructor call without keywords succeeds, so that [default_is] determines the default *)
  Theorem default_unique : forall c p (v w : val U), dynamic c -> default_is c p v -> default_is c p w -> v = w.
  Proof.
    intros c p v w Hc Hv Hw. assert (E : exists r, call (U:=U) (mro c) [] = Ok r).
    { destruct (numpy_accepts c (@nil (string * val U)) Hc) as [[_ N] _]. destruct N as (o & Ho); [intros k []|]. apply build_call. eauto. }
    destruct E as (r & E). rewrite <- (Hv [] r E eq_refl). apply (Hw [] r E eq_refl).
  Qed.
End Facts.

Theorem documented_refuted : forall c p v, In (c, p, v) (map (fun q => (CBO, fst q, snd q)) [("dt", "0.1"); ("sigma", "1.0"); ("noise", "normal_noise(dt=0.1)")] ++
    map (fun q => (CBOMemory, fst q, snd q)) [("dt", "0.1"); ("sigma", "1.0"); ("noise", "normal_noise(dt=0.1)"); ("lamda_memory", "1.0"); ("sigma_memory", "1.0")] ++
    map (fun q => (PSO, fst q, snd q)) [("dt", "0.1"); ("sigma", "1.0"); ("noise", "normal_noise(dt=0.1)"); ("m", "0.1"); ("lamda_memory", "1.0"); ("sigma_memory", "1.0")]) ->
  In (p, v) (documented c) /\ forall U, ~ default_is (U:=U) c p (Lib v).
Proof.
  assert (G : forall U c p (v w : val U), dynamic c -> v <> w -> default_is c p v -> ~ default_is c p w) by (intros U c p v w D N H1 H2; apply N; eapply default_unique; eauto).
  assert (D1 : dynamic CBO) by (split; [|split]; discriminate). assert (D2 : dynamic CBOMemory) by (split; [|split]; discriminate). assert (D3 : dynamic PSO) by (split; [|split]; discriminate).
  intros c p v H. cbn [map app fst snd] in H.
  repeat (destruct H as [H|H]; [injection H as <- <- <-; split; [cbn; tauto|intros U; eapply G; [assumption| |
    (apply (cbo_actual (U:=U)); cbn; tauto) || (apply (memory_actual (U:=U)); cbn; tauto) || apply (pso_actual (U:=U))]; discriminate]|]).
  destruct H.
Qed.
