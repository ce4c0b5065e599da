(** * Properties of utilities: regularisation parameters, network parameters, plotting, selection by name *)
From Coq Require Import String List Arith Bool ZArith Reals Lra Lia.
From Verif Require Import Scalar Np PdynFacts State Pdyn Exec ExZ HistSpec Dispatch DispatchFacts Torch TorchFacts Plotting PlotFacts
  RVec RegSched RegFacts ExUtil TorchSize.
Import ListNotations.
Open Scope string_scope.
Open Scope nat_scope.
Open Scope list_scope.

(** C56. One update: for a run with mean m of the regulariser, lamda is multiplied by its factor exactly if m is not
    at most 1/sqrt(theta), and always ends in [0, lamda_max]. *)
Theorem C56_update : forall theta_max ft fl' lmax (ms : list (fl R)) theta lamda theta' lamda', (0 <= lmax)%R ->
  sched_update theta_max ft fl' lmax ms (theta, lamda) = Ok (theta', lamda') ->
  length theta' = length theta /\ length lamda' = length lamda /\
  Forall (fun l => (0 <= l <= lmax)%R) lamda' /\
  forall k m t l, nth_error ms k = Some m -> nth_error theta k = Some t -> nth_error lamda k = Some l ->
    (0 < t)%R -> (0 <= l <= lmax)%R -> (0 <= fl')%R ->
    exists t' l', nth_error theta' k = Some t' /\ nth_error lamda' k = Some l' /\
      ((m = NInf \/ exists x, m = Fin x /\ (x <= / sqrt t)%R) -> l' = l /\ t' = (t * ft)%R) /\
      (~ (m = NInf \/ exists x, m = Fin x /\ (x <= / sqrt t)%R) -> l' = Rmin (l * fl') lmax /\ t' = Rmin (t / ft) theta_max).
Proof. exact upd_full. Qed.
Print Assumptions C56_update.

(** After any positive number of updates lamda lies in [0, lamda_max]. *)
Theorem C56_lamda_bounds : forall theta_max ft fl' lmax mss p theta' lamda', (0 <= lmax)%R -> mss <> [] ->
  sched_updates theta_max ft fl' lmax mss p = Ok (theta', lamda') -> Forall (fun l => (0 <= l <= lmax)%R) lamda'.
Proof. exact upds_bounds. Qed.
Print Assumptions C56_lamda_bounds.

(** theta_max does not bound theta: a regulariser vanishing on the ensemble drives theta over every bound. *)
Theorem C56_theta_refuted : forall theta_max ft fl' lmax t l B M, (1 < ft)%R -> (0 < t)%R -> (0 <= lmax)%R ->
  exists mss theta' lamda', 1 <= length mss /\ Forall (fun ms => ms = repeat (Fin 0%R) (S M)) mss /\
    sched_updates theta_max ft fl' lmax mss (repeat t (S M), repeat l (S M)) = Ok (theta', lamda') /\
    Forall (fun t' => (B < t')%R) theta'.
Proof. exact theta_unbounded. Qed.
Print Assumptions C56_theta_refuted.

(** The means: the plain one, and the one weighted by exp(-alpha f), which lies between the smallest and the largest
    value of the regulariser. *)
Theorem C56_means : forall a e r lo hi, e <> [] -> length r = length e -> (forall v, In v r -> (lo <= v <= hi)%R) ->
  simple_mean (map Fin r) = Fin (Rsum r / INR (length r))%R /\
  exists w, weighted_mean (Fin a) (map Fin e) (map Fin r) = Fin w /\
    (w * Rsum (map (fun v => exp (- a * v)) e) = Rsum (map (fun p => exp (- a * fst p) * snd p) (combine e r)))%R /\ (lo <= w <= hi)%R.
Proof. exact means_spec. Qed.
Print Assumptions C56_means.

Example C56_case : exists theta' lamda',
  sched_update 100 2 3 10 [Fin 0; Fin 1; Fin 1]%R ([4; 4; 4], [1; 1; 5])%R = Ok (theta', lamda') /\
  theta' = [8; 2; 2]%R /\ lamda' = [1; 3; 10]%R.
Proof. exact sched_example. Qed.

(** C75. regularize_objective is f + lamda reg^p in every point of an ensemble with the number of runs of the first
    call ... *)
Theorem C75_pointwise : forall K V (O : KOps K) (f reg : V -> fl K) (pow : fl K -> fl K) M N (x : arr V) s l, rect M N x -> 1 <= N ->
  (l = None \/ (exists r, l = Some r /\ rect M 1 r)) ->
  exists e l', reg_call f reg pow x (mkregobj s l) = Ok (mkregobj s (Some l'), e) /\ rect M 1 l' /\
    (forall r, l = Some r -> l' = r) /\ (l = None -> l' = repeat [s] M) /\
    rect M N e /\
    forall m n row v la, nth_error x m = Some row -> nth_error row n = Some v -> nth_error l' m = Some [la] ->
      exists erow, nth_error e m = Some erow /\ nth_error erow n = Some (fadd (f v) (fmul la (pow (reg v)))).
Proof. exact @reg_call_pointwise. Qed.
Print Assumptions C75_pointwise.

(** ... but when fewer runs are active it raises, or, for one run, returns the values of M runs. *)
Theorem C75_fewer_runs_refuted : forall K V (O : KOps K) (f reg : V -> fl K) (pow : fl K -> fl K) M A N (x : arr V) s r,
  rect M 1 r -> rect A N x -> 1 <= N ->
  (1 < A < M -> reg_call f reg pow x (mkregobj s (Some r)) = Err ShapeError) /\
  (A = 1 -> 2 <= M -> exists e, reg_call f reg pow x (mkregobj s (Some r)) = Ok (mkregobj s (Some r), e) /\ rect M N e).
Proof. exact @reg_call_fewer. Qed.
Print Assumptions C75_fewer_runs_refuted.

Example C75_case : exists o e, rect 3 2 [[0; 1]; [2; 3]; [4; 5]]%R /\
  reg_call (fun v => Fin v) (fun v => Fin v) (fun v => fmul v v) [[0; 1]; [2; 3]; [4; 5]]%R (mkregobj (Fin 1%R) None) = Ok (o, e) /\
  o_lamda o = Some [[Fin 1]; [Fin 1]; [Fin 1]]%R /\
  reg_call (fun v => Fin v) (fun v => Fin v) (fun v => fmul v v) [[0; 1]; [2; 3]]%R o = Err ShapeError.
Proof. exact reg_example. Qed.

(** C65. For any models with the same parameters, flattening named parameters and cutting a row of the result by the
    recorded slices returns the parameters of the model; the slices partition the row. *)
Theorem C65_flatten : forall A (models : list (module A)) names pnames, same_architecture models names ->
  NoDup pnames -> incl pnames (map fst names) -> pnames <> [] ->
  exists W pprop, flatten_parameters models pnames = Ok W /\ get_param_properties models (Some pnames) = Ok pprop /\
    map fst pprop = pnames /\ length W = length models /\
    forall n m w, nth_error models n = Some m -> nth_error W n = Some w ->
      (exists l, eval_params w pprop = Ok l /\ map fst l = pnames /\
         forall p, In p pnames -> Dispatch.lookup l p = Dispatch.lookup m p) /\
      (forall k, k < length w -> exists! p, exists sh a b, In (p, (sh, (a, b))) pprop /\ a <= k < b).
Proof. exact @torch_flatten_spec. Qed.
Print Assumptions C65_flatten.

(** Without names all parameters are used, in the order of the module: flattening them and cutting a row returns every
    parameter. *)
Theorem C65_default_names : forall A (models : list (module A)) names, same_architecture models names -> names <> [] ->
  exists W pprop, flatten_parameters models (map fst names) = Ok W /\ get_param_properties models None = Ok pprop /\
    map fst pprop = map fst names /\ length W = length models /\
    forall n m w, nth_error models n = Some m -> nth_error W n = Some w ->
      exists l, eval_params w pprop = Ok l /\ map fst l = map fst names /\ forall p, In p (map fst names) -> Dispatch.lookup l p = Dispatch.lookup m p.
Proof. exact @torch_default_names. Qed.
Print Assumptions C65_default_names.

(** Conversely every vector of the right length is cut into parameters of the right sizes whose concatenation is the
    vector. *)
Theorem C65_unflatten : forall A (models : list (module A)) names pnames pprop (w : list A), same_architecture models names ->
  NoDup pnames -> incl pnames (map fst names) -> get_param_properties models (Some pnames) = Ok pprop ->
  length w = last_end pprop ->
  exists l, eval_params w pprop = Ok l /\ concat (map (fun e => snd (snd e)) l) = w /\ sized l.
Proof. exact @torch_unflatten_spec. Qed.
Print Assumptions C65_unflatten.

(** The slice of a parameter has one entry for each multi-index of its shape. *)
Theorem C65_sizes : forall A (models : list (module A)) names pnames pprop, same_architecture models names ->
  NoDup pnames -> incl pnames (map fst names) -> get_param_properties models (Some pnames) = Ok pprop ->
  (forall p sh a b, In (p, (sh, (a, b))) pprop -> Dispatch.lookup names p = Some sh /\ b = a + length (positions sh)) /\
  forall sh l, In l (positions sh) <-> Forall2 lt l sh.
Proof. exact (fun A models names pnames pprop H1 H2 H3 H4 => conj (slices_sized A models names pnames pprop H1 H2 H3 H4) positions_spec). Qed.
Print Assumptions C65_sizes.
Example C65_sizes_case : length (positions [3; 4]) = 12 /\ length (positions []) = 1.
Proof. split; reflexivity. Qed.

Theorem C65_unknown_name : forall A (models : list (module A)) names pnames, same_architecture models names ->
  ~ incl pnames (map fst names) -> flatten_parameters models pnames = Err KeyError.
Proof. exact @torch_unknown. Qed.
Print Assumptions C65_unknown_name.

(** Names must not be repeated: then a parameter is read from the slice of another one. *)
Theorem C65_repeated_names_refuted : exists (models : list (module nat)) names pnames W w pprop l,
  same_architecture models names /\ incl pnames (map fst names) /\ flatten_parameters models pnames = Ok W /\
  nth_error W 0 = Some w /\ get_param_properties models (Some pnames) = Ok pprop /\ eval_params w pprop = Ok l /\
  exists m, nth_error models 0 = Some m /\ Dispatch.lookup l "b" <> Dispatch.lookup m "b".
Proof. exact net_repeated. Qed.
Print Assumptions C65_repeated_names_refuted.

Example C65_case : same_architecture [net 0; net 10] [("w", [2; 2]); ("b", [2])] /\
  flatten_parameters [net 0; net 10] ["b"; "w"] = Ok [[4; 5; 0; 1; 2; 3]; [14; 15; 10; 11; 12; 13]] /\
  get_param_properties [net 0; net 10] (Some ["b"; "w"]) = Ok [("b", ([2], (0, 2))); ("w", ([2; 2], (2, 6)))].
Proof. split; [exact net_arch | exact net_example]. Qed.

(** C66. Plotting run num_run from a recorded history: if every recorded step has a row for this run, no access is out of
    range; frame i shows the ensemble, consensus and drift recorded as number i, and the frames are the multiples
    of the frequency below the number of recorded steps (so the last ensemble is never shown). *)
Theorem C66_frames : forall K V (O : KOps K) (c : cfg K V) x0 names save pairs s num_run freq,
  tracked_run c x0 names save pairs s ->
  In "x" names -> In "consensus" names -> In "drift" names -> pairs <> [] -> 1 <= freq -> num_run < length x0 ->
  (forall a b, In (a, b) pairs -> num_run < length (s_x b) /\
     (exists cpt, s_cons b = Some cpt /\ num_run < length cpt) /\ (exists d, s_drift b = Some d /\ num_run < length d)) ->
  exists fs, plot_history num_run freq true true (s_hist s) = Ok fs /\
    map fr_it fs = filter (fun j => j mod freq =? 0) (seq 0 ((length pairs + save - 1) / save)) /\
    Forall (fun f => exists a b x cpt d crow drow, nth_error pairs (fr_it f * save) = Some (a, b) /\
       shown_ensemble x0 pairs save (fr_it f) x /\ nth_error x num_run = Some (fr_x f) /\
       s_cons b = Some cpt /\ nth_error cpt num_run = Some crow /\ fr_c f = Some crow /\
       s_drift b = Some d /\ nth_error d num_run = Some drow /\ fr_d f = Some drow) fs.
Proof. intros K V O. exact run_plots_ok. Qed.
Print Assumptions C66_frames.

Example C66_case : exists pairs s fs, tracked_run zcp zx1 ["x"; "consensus"; "drift"] 1 pairs s /\ length pairs = 3 /\
  (forall a b, In (a, b) pairs -> 1 < length (s_x b) /\
     (exists cpt, s_cons b = Some cpt /\ 1 < length cpt) /\ (exists d, s_drift b = Some d /\ 1 < length d)) /\
  plot_history 1 2 true true (s_hist s) = Ok fs /\ map fr_it fs = [0; 2].
Proof. exact plot_example. Qed.

(** Consensus points are recorded for the active runs only, but are indexed with num_run: as soon as a recorded
    step has at most num_run active runs, plotting raises. *)
Theorem C66_terminated_refuted : forall K V (O : KOps K) (c : cfg K V) x0 names save pairs s num_run freq i a b cpt pd,
  tracked_run c x0 names save pairs s ->
  In "x" names -> In "consensus" names -> 1 <= freq -> i < (length pairs + save - 1) / save -> i mod freq = 0 ->
  nth_error pairs (i * save) = Some (a, b) -> s_cons b = Some cpt -> length cpt <= num_run ->
  exists e, plot_history num_run freq true pd (s_hist s) = Err e.
Proof. intros K V O. exact run_plots_raise. Qed.
Print Assumptions C66_terminated_refuted.

(** Otherwise the consensus of another run may be shown. *)
Example C66_terminated_case : exists pairs s a b cpt, tracked_run zcp zxp ["x"; "consensus"; "drift"] 1 pairs s /\
  nth_error pairs 1 = Some (a, b) /\ s_active b = [1] /\ s_cons b = Some cpt /\ length cpt = 1 /\
  plot_history 1 1 true false (s_hist s) = Err IndexError /\
  exists fs, plot_history 0 1 true false (s_hist s) = Ok fs /\ map fr_x fs = [[1; 2; 3]; [-1; 0; 1]]%Z /\
    map fr_c fs = [Some [1]; Some [48]]%Z.
Proof. exact plot_raise_example. Qed.

(** contour_2D: an explicit limit 0 is replaced by the one for x. *)
Theorem C66_zero_limit_refuted : forall A (is_zero : A -> bool) x v, is_zero v = true -> y_limit is_zero x (Some v) = x.
Proof. exact y_limit_zero. Qed.
Print Assumptions C66_zero_limit_refuted.

Example C66_limit_case : y_limit (Z.eqb 0) (-3)%Z (Some 0%Z) = (-3)%Z /\ y_limit (Z.eqb 0) (-3)%Z (Some 2%Z) = 2%Z.
Proof. split; reflexivity. Qed.

(** C67. The string names a component exactly if it is one of the listed names; every other string raises. *)
Theorem C67_noise : forall U s c, (set_noise (AStr s : arg U) = Ok (Built c []) <-> In (s, c) noise_names) /\
  (~ In s (map fst noise_names) -> set_noise (AStr s : arg U) = Err NotImplemented).
Proof. split; [apply noise_iff | apply noise_unknown]. Qed.
Print Assumptions C67_noise.

Theorem C67_correction : forall U s c, (set_correction (AStr s : arg U) = Ok (Built c []) <-> In (s, c) correction_names) /\
  (~ In s (map fst correction_names) -> set_correction (AStr s : arg U) = Err ValueError).
Proof. split; [apply correction_iff | apply correction_unknown]. Qed.
Print Assumptions C67_correction.

Theorem C67_termination : forall U s c kw,
  (select_term (AStr s : arg U) = Ok (Built c []) <-> term_name c s) /\
  (select_term (ADict (mkdict (Some s) kw) : arg U) = Ok (Built c kw) <-> term_name c s) /\
  ((forall c, ~ term_name c s) -> select_term (AStr s : arg U) = Err KeyError /\
     select_term (ADict (mkdict (Some s) kw) : arg U) = Err KeyError) /\
  select_term (ADict (mkdict None kw) : arg U) = Err ValueError.
Proof. exact @term_all. Qed.
Print Assumptions C67_termination.

Theorem C67_constraints : forall U (l : list (option (dict U))),
  (forall r, get_constraints l = Ok r <->
     Forall2 names_class (filter (fun o => match o with Some _ => true | None => false end) l) r) /\
  (forall e, get_constraints l = Err e -> e = KeyError).
Proof. split; [intros; apply constraints_iff | apply constraints_raise]. Qed.
Print Assumptions C67_constraints.

Theorem C67_mirror : forall U s c kw,
  (get_mirror_map (AStr s : arg U) = Ok (Built c []) <-> s = mirror_name c \/ (s = "None" /\ c = L2)) /\
  (get_mirror_map (ADict (mkdict (Some s) kw) : arg U) = Ok (Built c kw) <-> s = mirror_name c \/ (s = "None" /\ c = L2)) /\
  get_mirror_map (ANone : arg U) = Ok (Built L2 []) /\
  ((forall c, s <> mirror_name c) -> s <> "None" ->
     get_mirror_map (AStr s : arg U) = Err ValueError /\ get_mirror_map (ADict (mkdict (Some s) kw) : arg U) = Err ValueError).
Proof. exact @mirror_all. Qed.
Print Assumptions C67_mirror.

(** Signed distances and regularisers. *)
Theorem C67_sdf_reg : forall U s kw,
  (forall c, get_sdf (Some (mkdict (Some s) kw : dict U)) = Ok (Built c kw) <-> In (s, c) sdf_names) /\
  (~ In s (map fst sdf_names) -> get_sdf (Some (mkdict (Some s) kw : dict U)) = Err KeyError) /\
  get_sdf (None : option (dict U)) = Ok (Built SphereD []) /\
  (forall c, select_reg_func (ADict (mkdict (Some s) kw) : arg U) = Ok (Built c kw) <-> In (s, c) reg_names) /\
  (forall c, select_reg_func (AStr s : arg U) = Ok (Built c []) <-> In (s, c) reg_names) /\
  (~ In s (map fst reg_names) -> select_reg_func (AStr s : arg U) = Err KeyError).
Proof. exact @sdf_reg_all. Qed.
Print Assumptions C67_sdf_reg.

Theorem C67_callables : forall U (u : U), set_noise (ACall u) = Ok (Given (Some u)) /\ set_correction (ACall u) = Ok (Given (Some u)) /\
  select_term (ACall u) = Ok (Given (Some u)) /\ select_reg_func (ACall u) = Ok (Given (Some u)) /\
  get_mirror_map (ACall u) = Ok (Given (Some u)).
Proof. exact @callables_kept. Qed.
Print Assumptions C67_callables.

(** Other values are handed on unchanged; a dictionary without a name is rejected. *)
Theorem C67_others : forall U, (forall u : U, select_term (AOther u) = Ok (Given (Some u)) /\ select_reg_func (AOther u) = Ok (Given (Some u)) /\ get_mirror_map (AOther u) = Ok (Given (Some u))) /\
  select_term (ANone : arg U) = Ok (Given None) /\ select_reg_func (ANone : arg U) = Ok (Given None) /\
  forall kw, select_term (ADict (mkdict None kw) : arg U) = Err ValueError /\ select_reg_func (ADict (mkdict None kw) : arg U) = Err KeyError /\
    get_mirror_map (ADict (mkdict None kw) : arg U) = Err KeyError /\ get_sdf (Some (mkdict None kw : dict U)) = Err KeyError.
Proof. exact @others_kept. Qed.
Print Assumptions C67_others.

(** The documentation gives None for no noise and 'none' for no correction. *)
Theorem C67_documented_refuted : forall U, set_noise (ANone : arg U) = Err ValueError /\
  set_correction (AStr "none" : arg U) = Err ValueError /\ set_correction (ANone : arg U) = Err ValueError.
Proof. exact @rejected. Qed.
Print Assumptions C67_documented_refuted.

Example C67_case : set_noise (AStr "sampling" : arg nat) = Ok (Built Covariance []) /\ term_name MaxIt "max it" /\
  (forall c, ~ term_name c "max") /\
  get_constraints [None; Some (mkdict (Some "plane") [("a", 3)])] = Ok [Built PlaneC [("a", 3)]].
Proof. exact dispatch_example. Qed.
