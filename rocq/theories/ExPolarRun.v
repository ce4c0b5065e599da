(** * Concrete pairs of PolarCBO runs *)
From Coq Require Import String List Arith Bool Reals Permutation Lia Lra.
From Verif Require Import Scalar Np NpFacts State Pdyn PdynRun PdynOk Exec RunFacts Script RVec RVecFacts Consensus ConsSpec ConsFacts PostProc Cbo CboSpec CboFacts
  TwinSpec SymFacts Polar PolarSpec PolarRun PolarRunSpec PolarSym ExCbo.
Import ListNotations.
Open Scope R_scope.

Lemma ppaired : forall phi chi (c c' : cfg R vec) (QS : st R vec -> Prop) a la dt sg s s', c_bsize c' = c_bsize c -> plain c 3 -> plain c' 3 -> (1 <= c_bsize c <= 3)%nat -> 0 <= dt ->
  cinit c a la dt sg = Ok s ->
  init c' (map (map phi) cx0) false (Fin a) (Fin sg) (Fin la) (Fin dt) (fun _ => [2; 0; 1]%nat) None [] None = Ok s' ->
  QS s -> exists s1 s1', step c corc s = Ok s1 /\ paired phi c c' chi QS (finite_draws 2) s1 s1'.
Proof.
  intros phi chi c c' QS a la dt sg s s' B N1 N2 Hb Hdt I1 I2 HQ.
  destruct (cinit_ok c a la dt sg Hb Hdt) as (s0 & I0 & E & _ & HN & _ & P & _ & _ & _ & _ & FS & _). rewrite I1 in I0. injection I0 as <-.
  assert (PA : paired phi c c' chi QS (finite_draws 2) s s').
  { eapply (pa_init phi c c' chi _ _ cx0 false); eauto.
    - split; [reflexivity|repeat constructor].
    - cbn; lia.
    - intros m _. apply (perm_b_ok 3). reflexivity.
    - discriminate. }
  rewrite <- HN in N1. destruct (exec_step_good c s [] corc E N1 P) as (s1 & HS).
  set (o' := {| o_z := fun k n => chi (o_z corc k n); o_perm := o_perm corc |}).
  assert (E' : exec c' s' []).
  { apply ex_init. exists (map (map phi) cx0), false, (Fin a), (Fin sg), (Fin la), (Fin dt), (fun _ => [2; 0; 1]%nat), None, [], None.
    split; [split; [reflexivity|repeat constructor]|]. split; [cbn; lia|]. split; [rewrite B; exact Hb|].
    split; [|split; [discriminate|exact I2]]. intros m _. apply (perm_b_ok 3). reflexivity. }
  assert (HN' : s_N s' = 3%nat) by (injection I2 as <-; reflexivity).
  assert (P' : perms_valid o' s').
  { intros m Hm. cbn [o' o_perm]. rewrite HN'. apply (perm_b_ok 3). reflexivity. }
  rewrite <- HN' in N2. destruct (exec_step_good c' s' [] o' E' N2 P') as (s1' & HS').
  exists s1, s1'. split; auto. eapply pa_step; eauto. exact corc_finite.
Qed.

Lemma plain3 : forall kn kappa md f k pp b partial cat ks save, partial = true \/ b = 3%nat -> plain (polar_cfg kn kappa md f k pp b partial cat ks save) 3.
Proof. intros. split; [right; split; [apply polar_per_particle|exact H]|reflexivity]. Qed.

Lemma cinit_alpha : forall c a la dt sg s, cinit c a la dt sg = Ok s -> s_alpha s = repeat [Fin a] 2 /\ s_N s = 3%nat.
Proof. intros c a la dt sg s H. injection H as <-. split; reflexivity. Qed.

Lemma cpolar_state : forall c a la dt sg s b partial pos, cinit c a la dt sg = Ok s -> (1 <= c_bsize c <= 3)%nat -> 0 <= dt -> partial = true \/ b = 3%nat -> 0 < a ->
  polar_state 2 pos b partial s.
Proof.
  intros c a la dt sg s b partial pos HI Hb Hdt HB Ha. destruct (cinit_ok c a la dt sg Hb Hdt) as (s0 & I0 & _ & _ & HN & _ & _ & FA & HP & _ & _ & FS & _).
  rewrite HI in I0. injection I0 as <-. destruct (cinit_alpha _ _ _ _ _ _ HI) as (HA & _). destruct FS as [(F1 & F2) F3]. split; [|exact F3].
  split; [exact F1|]. split; [exact F2|]. split; [unfold batches_fit; rewrite HN; exact HB|].
  intros _ m a' H. rewrite HA in H. destruct m as [|[|m]]; cbn in H; [| |destruct m; discriminate]; injection H as <-; auto.
Qed.

(** PolarCBO on |x|^2 with three particles in the plane, batches of two *)
Definition epc (f : vec -> fl R) (kn : kname) (kappa : fl R) (k : noise_model) (ks : list (crit R vec)) : cfg R vec :=
  polar_cfg kn kappa MAlpha f k (fun v => v) 2 true false ks true.

Lemma ex_polar_shift : exists s s1 s1', let c := epc sqf KGauss (Fin 1) NAniso [CMaxIt (Some 5%nat)] in
  cinit c 1 1 (/ 2) 3 = Ok s /\ step c corc s = Ok s1 /\
  paired (fun v => v) c (epc (fun v => add_energy 7 (sqf v)) KGauss (Fin 1) NAniso (map (image_crit (add_energy 7)) [CMaxIt (Some 5%nat)]))
    (fun z => z) (polar_state 2 true 2 true) (finite_draws 2) s1 s1'.
Proof.
  set (c := epc sqf KGauss (Fin 1) NAniso [CMaxIt (Some 5%nat)]).
  destruct (cinit_ok c 1 1 (/ 2) 3) as (s & I & _); [cbn; lia|lra|].
  destruct (ppaired (fun v => v) (fun z => z) c (epc (fun v => add_energy 7 (sqf v)) KGauss (Fin 1) NAniso (map (image_crit (add_energy 7)) [CMaxIt (Some 5%nat)]))
    (polar_state 2 true 2 true) 1 1 (/ 2) 3 s _ eq_refl (plain3 _ _ _ _ _ _ _ _ _ _ _ (or_introl eq_refl)) (plain3 _ _ _ _ _ _ _ _ _ _ _ (or_introl eq_refl)) ltac:(cbn; lia) ltac:(lra) I eq_refl) as (s1 & s1' & S1 & Pa).
  - eapply cpolar_state; eauto; [cbn; lia|lra|lra].
  - exists s, s1, s1'. cbn zeta. auto.
Qed.

Lemma ex_polar_translation : exists f' s s1 s1', let c := epc sqf KConst (Fin 2) NAniso [CMaxIt (Some 5%nat)] in
  (forall p, length p = 2%nat -> f' (floats (vadd p [1; -2])) = sqf (floats p)) /\
  cinit c 1 1 (/ 2) 3 = Ok s /\ step c corc s = Ok s1 /\
  paired (translate [1; -2]) c (epc f' KConst (Fin 2) NAniso [CMaxIt (Some 5%nat)]) (fun z => z) (polar_state 2 true 2 true) (finite_draws 2) s1 s1'.
Proof.
  set (f' := fun v : vec => sqf (translate [-1; 2] v)). exists f'. set (c := epc sqf KConst (Fin 2) NAniso [CMaxIt (Some 5%nat)]).
  destruct (cinit_ok c 1 1 (/ 2) 3) as (s & I & _); [cbn; lia|lra|].
  destruct (ppaired (translate [1; -2]) (fun z => z) c (epc f' KConst (Fin 2) NAniso [CMaxIt (Some 5%nat)])
    (polar_state 2 true 2 true) 1 1 (/ 2) 3 s _ eq_refl (plain3 _ _ _ _ _ _ _ _ _ _ _ (or_introl eq_refl)) (plain3 _ _ _ _ _ _ _ _ _ _ _ (or_introl eq_refl)) ltac:(cbn; lia) ltac:(lra) I eq_refl) as (s1 & s1' & S1 & Pa).
  - eapply cpolar_state; eauto; [cbn; lia|lra|lra].
  - exists s, s1, s1'. split; [|auto]. intros p Hp. destruct p as [|a [|b [|? ?]]]; try discriminate. unfold f', sqf. cbn. f_equal; ring.
Qed.

Lemma ex_polar_rotation : exists s s1 s1', let c := epc sqf KLaplace (Fin 1) NIso [CMaxIt (Some 5%nat)] in let A := [[0; -1]; [1; 0]] in
  isometry 2 A /\ (forall p, length p = 2%nat -> sqf (floats (map (fun r => dot r p) A)) = sqf (floats p)) /\
  cinit c 1 1 (/ 2) 3 = Ok s /\ step c corc s = Ok s1 /\
  paired (rotate A) c c (rotate A) (polar_state 2 true 2 true) (finite_draws 2) s1 s1'.
Proof.
  set (c := epc sqf KLaplace (Fin 1) NIso [CMaxIt (Some 5%nat)]).
  destruct (cinit_ok c 1 1 (/ 2) 3) as (s & I & _); [cbn; lia|lra|].
  destruct (ppaired (rotate [[0; -1]; [1; 0]]) (rotate [[0; -1]; [1; 0]]) c c
    (polar_state 2 true 2 true) 1 1 (/ 2) 3 s _ eq_refl (plain3 _ _ _ _ _ _ _ _ _ _ _ (or_introl eq_refl)) (plain3 _ _ _ _ _ _ _ _ _ _ _ (or_introl eq_refl)) ltac:(cbn; lia) ltac:(lra) I eq_refl) as (s1 & s1' & S1 & Pa).
  - eapply cpolar_state; eauto; [cbn; lia|lra|lra].
  - exists s, s1, s1'. cbn zeta. split; [|split; [|auto]].
    + split; [reflexivity|]. split; [intros r [<-|[<-|[]]]; reflexivity|]. intros u Hu. destruct u as [|a [|b [|? ?]]]; try discriminate.
      unfold sqnorm, dot; cbn; ring.
    + intros p Hp. rewrite !sqf_floats. destruct p as [|a [|b [|? ?]]]; try discriminate. f_equal. unfold sqnorm, dot; cbn; ring.
Qed.

Lemma ex_polar_plain : exists s s1 s1', let c := cbo_cfg sqf NAniso (fun v => v) NoCorr 2 true false [CMaxIt (Some 5%nat)] true in
  cinit c 1 1 (/ 2) 3 = Ok s /\ step c corc s = Ok s1 /\
  paired (fun v => v) c (epc sqf KInvQuad PInf NAniso [CMaxIt (Some 5%nat)]) (fun z => z)
    (fun t => (finite_alpha t /\ finite_parameters t /\ batches_fit 2 true t) /\ (forall row v, In row (s_x t) -> In v row -> exists p, v = floats p /\ length p = 2%nat))
    (finite_draws 2) s1 s1'.
Proof.
  set (c := cbo_cfg sqf NAniso (fun v => v) NoCorr 2 true false [CMaxIt (Some 5%nat)] true).
  destruct (cinit_ok c 1 1 (/ 2) 3) as (s & I & _ & _ & HN & _ & _ & _ & _ & _ & _ & [(F1 & F2) F3] & _); [cbn; lia|lra|].
  destruct (ppaired (fun v => v) (fun z => z) c (epc sqf KInvQuad PInf NAniso [CMaxIt (Some 5%nat)])
    (fun t => (finite_alpha t /\ finite_parameters t /\ batches_fit 2 true t) /\ (forall row v, In row (s_x t) -> In v row -> exists p, v = floats p /\ length p = 2%nat))
     1 1 (/ 2) 3 s _ eq_refl (cbo_plain _ _ _ _ _ _ _ _ _) (plain3 _ _ _ _ _ _ _ _ _ _ _ (or_introl eq_refl)) ltac:(cbn; lia) ltac:(lra) I eq_refl) as (s1 & s1' & S1 & Pa).
  - split; [|exact F3]. split; [exact F1|]. split; [exact F2|]. left. reflexivity.
  - exists s, s1, s1'. cbn zeta. auto.
Qed.
