(** * Documented names and what they select *)
From Coq Require Import String List Bool.
From Verif Require Import Np Dispatch.
Import ListNotations.
Open Scope string_scope.
Open Scope list_scope.

(** The tables of the documentation (docs/userguide/dynamics.rst, docstrings). *)
Definition noise_names : list (string * noise_cls) :=
  [("isotropic", Isotropic); ("anisotropic", Anisotropic); ("sampling", Covariance); ("covariance", Covariance); ("constant", Constant)].
Definition correction_names : list (string * corr_cls) :=
  [("no_correction", NoCorrection); ("heavi_side", HeaviSide); ("heavi_side_reg", HeaviSideReg)].
(** the names of termination criteria are two words *)
Definition term_words (c : term_cls) : string * string :=
  match c with
  | EnergyTol => ("energy", "tol") | DiffTol => ("diff", "tol") | MaxEval => ("max", "eval")
  | MaxIt => ("max", "it") | MaxTime => ("max", "time") | EnergyStagnation => ("energy", "stagnation")
  end.
Definition term_name (c : term_cls) (s : string) : Prop :=
  exists sep, In sep ["-"; " "; "_"] /\ s = (fst (term_words c) ++ sep ++ snd (term_words c))%string.

Lemma lookup_In : forall C (t : list (string * C)) s c, lookup t s = Some c -> In (s, c) t.
Proof.
  induction t as [|[k d] t IH]; cbn; intros s c H; [discriminate |].
  destruct (String.eqb_spec k s); [left; congruence | right; auto].
Qed.
Lemma lookup_None : forall C (t : list (string * C)) s, lookup t s = None <-> ~ In s (map fst t).
Proof.
  induction t as [|[k d] t IH]; cbn; intros s; [split; auto |].
  destruct (String.eqb_spec k s); split; intros H; try discriminate.
  - exfalso. apply H. left. auto.
  - apply IH in H. intros [E | E]; auto.
  - apply IH. tauto.
Qed.
Lemma In_lookup : forall C (t : list (string * C)) s c, NoDup (map fst t) -> In (s, c) t -> lookup t s = Some c.
Proof.
  induction t as [|[k d] t IH]; intros s c ND H; [destruct H |]. cbn in *. inversion ND as [|? ? N1 N2]; subst.
  destruct (String.eqb_spec k s) as [-> | N].
  - destruct H as [H | H]; [congruence |]. exfalso. apply N1. apply in_map_iff. exists (s, c). auto.
  - destruct H as [H | H]; [congruence |]. auto.
Qed.

Section Names.
  Context {U : Type}.

  Lemma noise_iff : forall s c, set_noise (AStr s : arg U) = Ok (Built c []) <-> In (s, c) noise_names.
  Proof.
    intros s c. unfold set_noise, get_noise. cbn [noise_names In].
    repeat match goal with
           | |- context [String.eqb s ?k] => destruct (String.eqb_spec s k); [subst; cbn; split; [intros H; injection H as <-; tauto | intros H; repeat (destruct H as [H | H]; [try discriminate H; congruence |]); destruct H] |]
           end.
    cbn. split; [discriminate |]. intros H. repeat (destruct H as [H | H]; [congruence |]). destruct H.
  Qed.

  Lemma noise_unknown : forall s, ~ In s (map fst noise_names) -> set_noise (AStr s : arg U) = Err NotImplemented.
  Proof.
    intros s H. cbn in H. unfold set_noise, get_noise.
    repeat match goal with
           | |- context [String.eqb s ?k] => destruct (String.eqb_spec s k); [exfalso; apply H; subst; tauto |]
           end. reflexivity.
  Qed.

  Lemma correction_iff : forall s c, set_correction (AStr s : arg U) = Ok (Built c []) <-> In (s, c) correction_names.
  Proof.
    intros s c. unfold set_correction, get_correction. cbn [correction_names In].
    repeat match goal with
           | |- context [String.eqb s ?k] => destruct (String.eqb_spec s k); [subst; cbn; split; [intros H; injection H as <-; tauto | intros H; repeat (destruct H as [H | H]; [try discriminate H; congruence |]); destruct H] |]
           end.
    cbn. split; [discriminate |]. intros H. repeat (destruct H as [H | H]; [congruence |]). destruct H.
  Qed.

  Lemma correction_unknown : forall s, ~ In s (map fst correction_names) -> set_correction (AStr s : arg U) = Err ValueError.
  Proof.
    intros s H. cbn in H. unfold set_correction, get_correction.
    repeat match goal with
           | |- context [String.eqb s ?k] => destruct (String.eqb_spec s k); [exfalso; apply H; subst; tauto |]
           end. reflexivity.
  Qed.

  (** names and values which the documentation mentions and which are rejected *)
  Lemma rejected : set_noise (ANone : arg U) = Err ValueError /\ set_correction (AStr "none" : arg U) = Err ValueError /\
    set_correction (ANone : arg U) = Err ValueError.
  Proof. repeat split. Qed.

  Lemma callables_kept : forall u : U, set_noise (ACall u) = Ok (Given (Some u)) /\ set_correction (ACall u) = Ok (Given (Some u)) /\
    select_term (ACall u) = Ok (Given (Some u)) /\ select_reg_func (ACall u) = Ok (Given (Some u)) /\
    get_mirror_map (ACall u) = Ok (Given (Some u)).
  Proof. repeat split. Qed.

  (** everything which is neither string nor dictionary is handed on by select_term and select_reg_func; dictionaries need a name *)
  Lemma others_kept : (forall u : U, select_term (AOther u) = Ok (Given (Some u)) /\ select_reg_func (AOther u) = Ok (Given (Some u)) /\ get_mirror_map (AOther u) = Ok (Given (Some u))) /\
    select_term (ANone : arg U) = Ok (Given None) /\ select_reg_func (ANone : arg U) = Ok (Given None) /\
    forall kw, select_term (ADict (mkdict None kw) : arg U) = Err ValueError /\ select_reg_func (ADict (mkdict None kw) : arg U) = Err KeyError /\
      get_mirror_map (ADict (mkdict None kw) : arg U) = Err KeyError /\ get_sdf (Some (mkdict None kw : dict U)) = Err KeyError.
  Proof. repeat split. Qed.

  Lemma term_lookup : forall s c, lookup term_dict s = Some c <-> term_name c s.
  Proof.
    intros s c. split.
    - intros H. apply lookup_In in H. cbn in H.
      repeat (destruct H as [H | H];
              [injection H as <- <-; first [exists "-"; cbn; tauto | exists " "; cbn; tauto | exists "_"; cbn; tauto] |]).
      destruct H.
    - intros (sep & [<- | [<- | [<- | []]]] & ->); destruct c; reflexivity.
  Qed.

  (** a criterion by name, alone or in a dictionary with its keyword arguments *)
  Lemma term_iff : forall s c kw,
    (select_term (AStr s : arg U) = Ok (Built c []) <-> term_name c s) /\
    (select_term (ADict (mkdict (Some s) kw) : arg U) = Ok (Built c kw) <-> term_name c s).
  Proof.
    intros s c kw. rewrite <- (term_lookup s c). unfold select_term, getitem. cbn [d_name d_items].
    destruct (lookup term_dict s) as [k|]; cbn [bind]; split; split; intros H; try discriminate; injection H as ->; reflexivity.
  Qed.

  Lemma term_unknown : forall s kw, (forall c, ~ term_name c s) ->
    select_term (AStr s : arg U) = Err KeyError /\ select_term (ADict (mkdict (Some s) kw) : arg U) = Err KeyError /\
    select_term (ADict (mkdict None kw) : arg U) = Err ValueError.
  Proof.
    intros s kw H. unfold select_term, getitem. cbn [d_name d_items].
    destruct (lookup term_dict s) as [k|] eqn:E; cbn [bind]; auto. exfalso. apply (H k). apply term_lookup. auto.
  Qed.

  (** constraints: one instance per entry which is not None, in order *)
  Definition constraint_names : list (string * const_cls) := [("sphere", SphereC); ("plane", PlaneC); ("quadric", QuadricC)].

  Definition names_class (o : option (dict U)) (b : built U const_cls) : Prop :=
    exists d s c, o = Some d /\ d_name d = Some s /\ In (s, c) constraint_names /\ b = Built c (d_items d).

  Lemma const_lookup : forall s c, lookup const_dict s = Some c <-> In (s, c) constraint_names.
  Proof.
    intros s c. split.
    - intros H. apply lookup_In in H. cbn in H. cbn. tauto.
    - intros H. apply In_lookup; [| cbn in H; cbn; tauto].
      cbn. repeat constructor; cbn; intros H0; repeat (destruct H0 as [H0 | H0]; [discriminate |]); destruct H0.
  Qed.

  Lemma constraints_iff : forall l r, get_constraints l = Ok r <->
    Forall2 names_class (filter (fun o => match o with Some _ => true | None => false end) l) r.
  Proof.
    induction l as [|o l IH]; intros r; cbn.
    - split; [intros H; injection H as <-; constructor | intros H; inversion H; auto].
    - destruct o as [d|]; [| apply IH]. split.
      + destruct (d_name d) as [s|] eqn:En; cbn; [| discriminate]. unfold getitem.
        destruct (lookup const_dict s) as [c|] eqn:El; cbn; [| discriminate].
        destruct (get_constraints l) as [r'|] eqn:Er; cbn; [| discriminate]. intros H. injection H as <-.
        constructor; [| apply IH; auto]. exists d, s, c. rewrite <- const_lookup. auto.
      + intros H. inversion H as [| a b l' r' (d' & s & c & E1 & E2 & E3 & E4) H2]; subst. injection E1 as <-.
        rewrite E2. cbn. unfold getitem. rewrite (proj2 (const_lookup s c) E3). cbn.
        rewrite (proj2 (IH r') H2). reflexivity.
  Qed.

  Lemma constraints_raise : forall (l : list (option (dict U))) e, get_constraints l = Err e -> e = KeyError.
  Proof.
    induction l as [|[d|] l IH]; cbn; intros e H; try discriminate; auto.
    destruct (d_name d); cbn in H; [| congruence]. unfold getitem in H. destruct (lookup const_dict s); cbn in H; [| congruence].
    destruct (get_constraints l); cbn in H; [discriminate |]. injection H as <-. auto.
  Qed.

  (** mirror maps: the name of the class, plus None for the Euclidean one *)
  Definition mirror_name (c : mirror_cls) : string :=
    match c with
    | ElasticNet => "ElasticNet" | L2 => "L2" | ProjectionBall => "ProjectionBall"
    | ProjectionHyperplane => "ProjectionHyperplane" | ProjectionSphere => "ProjectionSphere"
    | ProjectionSquare => "ProjectionSquare" | LogBarrierBox => "LogBarrierBox" | NonsmoothBarrier => "NonsmoothBarrier"
    | WeightedL2 => "weighted_L2" | Entropy => "Entropy" | EntropySimplex => "EntropySimplex"
    end.

  Lemma mirror_lookup : forall s c, lookup mirror_dict s = Some c <-> s = mirror_name c \/ (s = "None" /\ c = L2).
  Proof.
    intros s c. split.
    - intros H. apply lookup_In in H. cbn in H.
      repeat (destruct H as [H | H]; [injection H as <- <-; cbn; tauto |]). destruct H.
    - intros [-> | [-> ->]]; [destruct c |]; reflexivity.
  Qed.

  Lemma mirror_iff : forall s c kw,
    (get_mirror_map (AStr s : arg U) = Ok (Built c []) <-> s = mirror_name c \/ (s = "None" /\ c = L2)) /\
    (get_mirror_map (ADict (mkdict (Some s) kw) : arg U) = Ok (Built c kw) <-> s = mirror_name c \/ (s = "None" /\ c = L2)) /\
    get_mirror_map (ANone : arg U) = Ok (Built L2 []).
  Proof.
    intros s c kw. rewrite <- (mirror_lookup s c). unfold get_mirror_map, get_mirror_map_by_name. cbn [d_name d_items].
    split; [| split; [| reflexivity]].
    all: destruct (lookup mirror_dict s) as [k|]; split; intros H; try discriminate; injection H as ->; reflexivity.
  Qed.

  Lemma mirror_unknown : forall s kw, (forall c, s <> mirror_name c) -> s <> "None" ->
    get_mirror_map (AStr s : arg U) = Err ValueError /\ get_mirror_map (ADict (mkdict (Some s) kw) : arg U) = Err ValueError.
  Proof.
    intros s kw H N. unfold get_mirror_map, get_mirror_map_by_name. cbn [d_name d_items].
    destruct (lookup mirror_dict s) as [k|] eqn:E; auto. exfalso. apply mirror_lookup in E. destruct E as [E | [E _]]; auto. apply (H k E).
  Qed.

  Lemma term_all : forall s c kw,
    (select_term (AStr s : arg U) = Ok (Built c []) <-> term_name c s) /\
    (select_term (ADict (mkdict (Some s) kw) : arg U) = Ok (Built c kw) <-> term_name c s) /\
    ((forall c, ~ term_name c s) -> select_term (AStr s : arg U) = Err KeyError /\
       select_term (ADict (mkdict (Some s) kw) : arg U) = Err KeyError) /\
    select_term (ADict (mkdict None kw) : arg U) = Err ValueError.
  Proof.
    intros s c kw. destruct (term_iff s c kw) as (A & B). split; auto. split; auto. split; [| reflexivity].
    intros H. destruct (term_unknown s kw H) as (C & D & _). auto.
  Qed.

  Lemma mirror_all : forall s c kw,
    (get_mirror_map (AStr s : arg U) = Ok (Built c []) <-> s = mirror_name c \/ (s = "None" /\ c = L2)) /\
    (get_mirror_map (ADict (mkdict (Some s) kw) : arg U) = Ok (Built c kw) <-> s = mirror_name c \/ (s = "None" /\ c = L2)) /\
    get_mirror_map (ANone : arg U) = Ok (Built L2 []) /\
    ((forall c, s <> mirror_name c) -> s <> "None" ->
       get_mirror_map (AStr s : arg U) = Err ValueError /\ get_mirror_map (ADict (mkdict (Some s) kw) : arg U) = Err ValueError).
  Proof.
    intros s c kw. destruct (mirror_iff s c kw) as (A & B & C). split; [exact A |]. split; [exact B |]. split; [exact C |]. apply mirror_unknown.
  Qed.

  (** signed distances and regularisers *)
  Definition sdf_names : list (string * sdf_cls) := [("Stiefel", StiefelD); ("plane", PlaneD); ("sphere", SphereD)].
  Definition reg_names : list (string * reg_cls) :=
    [("Sphere", RegSphere); ("Plane", RegPlane); ("Quadric", RegQuadric); ("L1", RegL1); ("L0", RegL0)].

  Ltac nodup := cbn; repeat constructor; cbn; intros H0; repeat (destruct H0 as [H0 | H0]; [discriminate |]); destruct H0.
  Lemma table : forall C (t t' : list (string * C)), NoDup (map fst t) -> (forall e, In e t <-> In e t') -> forall s kw,
    (forall c, bind (getitem t s) (fun c => Ok (Built c kw : built U C)) = Ok (Built c kw) <-> In (s, c) t') /\
    (~ In s (map fst t') -> bind (getitem t s) (fun c => Ok (Built c kw : built U C)) = Err KeyError).
  Proof.
    intros C t t' ND E s kw. split.
    - intros c. rewrite <- E. unfold getitem. split.
      + destruct (lookup t s) eqn:El; cbn; intros H; [| discriminate]. injection H as <-. apply lookup_In. auto.
      + intros H. rewrite (In_lookup _ t s c ND H). reflexivity.
    - intros H. unfold getitem. assert (El : lookup t s = None).
      { apply lookup_None. intros Hin. apply H. apply in_map_iff in Hin. destruct Hin as (e & <- & Hin). apply in_map. apply E. auto. }
      rewrite El. reflexivity.
  Qed.

  Lemma sdf_reg_all : forall s kw,
    (forall c, get_sdf (Some (mkdict (Some s) kw : dict U)) = Ok (Built c kw) <-> In (s, c) sdf_names) /\
    (~ In s (map fst sdf_names) -> get_sdf (Some (mkdict (Some s) kw : dict U)) = Err KeyError) /\
    get_sdf (None : option (dict U)) = Ok (Built SphereD []) /\
    (forall c, select_reg_func (ADict (mkdict (Some s) kw) : arg U) = Ok (Built c kw) <-> In (s, c) reg_names) /\
    (forall c, select_reg_func (AStr s : arg U) = Ok (Built c []) <-> In (s, c) reg_names) /\
    (~ In s (map fst reg_names) -> select_reg_func (AStr s : arg U) = Err KeyError).
  Proof.
    intros s kw.
    assert (T1 := table _ sdf_dict sdf_names ltac:(nodup) ltac:(intros e; cbn; tauto) s).
    assert (T2 := table _ reg_func_dict reg_names ltac:(nodup) ltac:(intros e; cbn; tauto) s).
    split; [apply (proj1 (T1 kw)) |]. split; [apply (proj2 (T1 kw)) |]. split; [reflexivity |].
    split; [apply (proj1 (T2 kw)) |]. split; [apply (proj1 (T2 [])) | apply (proj2 (T2 []))].
  Qed.
End Names.
