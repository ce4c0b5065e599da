(** * Concrete cases for plotting, flattening and the regularisation scheduler *)
From Coq Require Import String List Arith Bool ZArith Permutation Lia Reals Lra.
From Verif Require Import Dispatch DispatchFacts Scalar Np PdynFacts State Pdyn Exec TermSpec Script ExZ ExBatch HistSpec HistFacts ExHist Plotting PlotFacts Torch TorchFacts RegSched RegFacts.
Import ListNotations.
Open Scope string_scope.
Open Scope nat_scope.
Open Scope list_scope.

Definition zpinit (c : cfg Z Z) (x : arr Z) : res (st Z Z) :=
  init c x false (Fin 1%Z) (Fin 1%Z) (Fin 1%Z) (Fin 1%Z) (fun _ => [2; 0; 1]) (Some ["x"; "consensus"; "drift"]) [] (Some 1).

Definition zcp : cfg Z Z := zcfg sqf NoCorr 3 true false [CEnergyTol (Fin 10%Z)].

Lemma zp_tracked : forall x s0 pairs s, is_array (length x) 3 x -> shape1 x = 3 -> zpinit zcp x = Ok s0 -> recorded_run zcp s0 pairs s ->
  tracked_run zcp x ["x"; "consensus"; "drift"] 1 pairs s.
Proof.
  intros x s0 pairs s H1 H2 H3 H4. exists false, (Fin 1%Z), (Fin 1%Z), (Fin 1%Z), (Fin 1%Z), (fun _ => [2; 0; 1]), s0.
  rewrite H2. split; auto. split; [lia |]. split; [cbn; lia |].
  split; [intros; apply (perm_b_ok 3); reflexivity |]. split; auto. split; auto.
  split; [| split; auto].
  - repeat constructor; cbn; intros H; repeat (destruct H as [H | H]; [discriminate |]); destruct H.
  - intros _ H. cbn in H. repeat (destruct H as [H | H]; [discriminate |]). destruct H.
Qed.

(** three steps of two active runs; run 1 is plotted, every second iteration *)
Lemma plot_example : exists pairs s fs, tracked_run zcp zx1 ["x"; "consensus"; "drift"] 1 pairs s /\ length pairs = 3 /\
  (forall a b, In (a, b) pairs -> 1 < length (s_x b) /\
     (exists cpt, s_cons b = Some cpt /\ 1 < length cpt) /\ (exists d, s_drift b = Some d /\ 1 < length d)) /\
  plot_history 1 2 true true (s_hist s) = Ok fs /\ map fr_it fs = [0; 2].
Proof.
  let r := eval vm_compute in (zpinit zcp zx1) in
  match r with Ok ?s0 =>
    let s1 := ok_step zcp (zorc (-2) [1; 2; 0]) s0 in
    let s2 := ok_step zcp (zorc (-2) [1; 2; 0]) s1 in
    let s3 := ok_step zcp (zorc 3 [0; 2; 1]) s2 in
    exists [(s0, s1); (s1, s2); (s2, s3)], s3; eexists;
    split; [eapply (zp_tracked zx1 s0);
      [vm_compute; split; [reflexivity | repeat constructor] | reflexivity | vm_compute; reflexivity |
       refine (rr_step zcp s0 [(s0, s1); (s1, s2)] s2 (zorc 3 [0; 2; 1]) s3 _ _ _);
      [refine (rr_step zcp s0 [(s0, s1)] s1 (zorc (-2) [1; 2; 0]) s2 _ _ _);
       [refine (rr_step zcp s0 [] s0 (zorc (-2) [1; 2; 0]) s1 (rr_nil zcp s0) _ _)| |] | |];
      try (apply zperm_valid; vm_compute; reflexivity); try (vm_compute; reflexivity)]
    |] end.
  split; [reflexivity |]. split.
  - intros a b [H | [H | [H | []]]]; injection H as <- <-; cbn; (split; [lia |]); split; eexists; (split; [reflexivity | cbn; lia]).
  - vm_compute. repeat split; reflexivity.
Qed.

(** run 0 has reached the tolerance after the first step; plotting run 1 then raises, plotting run 0 shows the
    consensus of run 1 *)
Definition zxp : arr Z := [[1; 2; 3]; [50; 60; 70]]%Z.
Lemma plot_raise_example : exists pairs s a b cpt, tracked_run zcp zxp ["x"; "consensus"; "drift"] 1 pairs s /\
  nth_error pairs 1 = Some (a, b) /\ s_active b = [1] /\ s_cons b = Some cpt /\ length cpt = 1 /\
  plot_history 1 1 true false (s_hist s) = Err IndexError /\
  exists fs, plot_history 0 1 true false (s_hist s) = Ok fs /\ map fr_x fs = [[1; 2; 3]; [-1; 0; 1]]%Z /\
    map fr_c fs = [Some [1]; Some [48]]%Z.
Proof.
  let r := eval vm_compute in (zpinit zcp zxp) in
  match r with Ok ?s0 =>
    let s1 := ok_step zcp (zorc (-2) [1; 2; 0]) s0 in
    let t := eval vm_compute in (terminate zcp s1) in
    match t with Ok (?b, ?s1') =>
    let s2 := ok_step zcp (zorc (-2) [1; 2; 0]) s1' in
    exists [(s0, s1); (s1', s2)], s2; do 3 eexists;
    split; [eapply (zp_tracked zxp s0);
      [vm_compute; split; [reflexivity | repeat constructor] | reflexivity | vm_compute; reflexivity |
       refine (rr_step zcp s0 [(s0, s1)] s1' (zorc (-2) [1; 2; 0]) s2 _ _ _);
      [refine (rr_term zcp s0 [(s0, s1)] s1 b s1' _ _);
        [refine (rr_step zcp s0 [] s0 (zorc (-2) [1; 2; 0]) s1 (rr_nil zcp s0) _ _)| ] | |];
      try (apply zperm_valid; vm_compute; reflexivity); try (vm_compute; reflexivity)]
    |] end end.
  split; [reflexivity |]. split; [reflexivity |]. split; [reflexivity |]. split; [reflexivity |].
  split; [vm_compute; reflexivity |]. eexists. split; [vm_compute; reflexivity |]. split; reflexivity.
Qed.

(** two networks with a 2x2 weight and a bias; with repeated names the slices go wrong *)
Definition net (k : nat) : module nat := [("w", ([2; 2], [k; k + 1; k + 2; k + 3])); ("b", ([2], [k + 4; k + 5]))].
Lemma net_arch : same_architecture [net 0; net 10] [("w", [2; 2]); ("b", [2])].
Proof.
  split; [| split; [discriminate |]].
  - cbn. repeat constructor; cbn; intros H; repeat (destruct H as [H | H]; [discriminate |]); destruct H.
  - repeat constructor.
Qed.
Lemma net_example : flatten_parameters [net 0; net 10] ["b"; "w"] = Ok [[4; 5; 0; 1; 2; 3]; [14; 15; 10; 11; 12; 13]] /\
  get_param_properties [net 0; net 10] (Some ["b"; "w"]) = Ok [("b", ([2], (0, 2))); ("w", ([2; 2], (2, 6)))].
Proof. split; reflexivity. Qed.

Lemma net_twice : exists w pprop l, flatten_parameters [net 0] ["w"; "b"; "w"; "b"] = Ok [w] /\
  get_param_properties [net 0] (Some ["w"; "b"; "w"; "b"]) = Ok pprop /\ eval_params w pprop = Ok l /\
  Dispatch.lookup l "b" = Some ([2], [0; 1]) /\ Dispatch.lookup (net 0) "b" = Some ([2], [4; 5]).
Proof. do 3 eexists. repeat split. Qed.

Lemma net_repeated : exists (models : list (module nat)) names pnames W w pprop l,
  same_architecture models names /\ incl pnames (map fst names) /\ flatten_parameters models pnames = Ok W /\
  nth_error W 0 = Some w /\ get_param_properties models (Some pnames) = Ok pprop /\ eval_params w pprop = Ok l /\
  exists m, nth_error models 0 = Some m /\ Dispatch.lookup l "b" <> Dispatch.lookup m "b".
Proof.
  exists [net 0; net 10], [("w", [2; 2]); ("b", [2])], ["w"; "b"; "w"; "b"]. do 4 eexists. split; [exact net_arch |].
  split; [intros p Hp; cbn in *; tauto |]. split; [reflexivity |]. split; [reflexivity |]. split; [reflexivity |]. split; [reflexivity |].
  eexists. split; [reflexivity |]. cbn. discriminate.
Qed.

Lemma reg_example : exists o e, rect 3 2 [[0; 1]; [2; 3]; [4; 5]]%R /\
  reg_call (fun v => Fin v) (fun v => Fin v) (fun v => fmul v v) [[0; 1]; [2; 3]; [4; 5]]%R (mkregobj (Fin 1%R) None) = Ok (o, e) /\
  o_lamda o = Some [[Fin 1]; [Fin 1]; [Fin 1]]%R /\
  reg_call (fun v => Fin v) (fun v => Fin v) (fun v => fmul v v) [[0; 1]; [2; 3]]%R o = Err ShapeError.
Proof.
  do 2 eexists. split.
  { split; [reflexivity |]. intros k row H. do 3 (destruct k as [|k]; [injection H as <-; reflexivity |]). destruct k; discriminate H. }
  split; [reflexivity |]. split; reflexivity.
Qed.

Lemma sched_example : exists theta' lamda',
  sched_update 100 2 3 10 [Fin 0; Fin 1; Fin 1]%R ([4; 4; 4], [1; 1; 5])%R = Ok (theta', lamda') /\
  theta' = [8; 2; 2]%R /\ lamda' = [1; 3; 10]%R.
Proof.
  do 2 eexists. split; [reflexivity |].
  assert (Hs : sqrt 4 = 2%R). { replace 4%R with (2 * 2)%R by lra. apply sqrt_square. lra. }
  assert (B0 : below (Fin 0%R) 4 = true).
  { apply below_spec; [lra |]. right. exists 0%R. split; auto. rewrite Hs. lra. }
  assert (B1 : below (Fin 1%R) 4 = false).
  { destruct (below (Fin 1%R) 4) eqn:E; auto. exfalso. apply below_spec in E; [| lra].
    destruct E as [E | (x & E & F)]; [discriminate |]. injection E as <-. rewrite Hs in F. lra. }
  cbn. unfold theta_step, lamda_step. cbn [fst snd]. rewrite B0, B1.
  split; repeat f_equal; unfold Rmin, Rmax; repeat destruct Rle_dec; lra.
Qed.

Lemma dispatch_example : set_noise (AStr "sampling" : arg nat) = Ok (Built Covariance []) /\ term_name MaxIt "max it" /\
  (forall c, ~ term_name c "max") /\
  get_constraints [None; Some (mkdict (Some "plane") [("a", 3)])] = Ok [Built PlaneC [("a", 3)]].
Proof.
  split; [reflexivity |]. split; [exists " "; split; [cbn; tauto | reflexivity] |]. split; [| reflexivity].
  intros c (sep & H & E). cbn in H. repeat (destruct H as [<- | H]; [destruct c; discriminate |]). destruct H.
Qed.
