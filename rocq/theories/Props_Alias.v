(** * C18, C19: shared arrays and shared tracker lists *)
From Coq Require Import String List Arith Bool ZArith.
From Verif Require Import Scalar Np State Pdyn Exec Script ExZ Variant Alias AliasSpec AliasFacts Shared SharedSpec SharedFacts ExAlias.
Import ListNotations.
Open Scope string_scope.
Open Scope nat_scope.
Open Scope list_scope.

(** C18. What the first entry of history['x'] holds after any number of steps, termination checks and parameter changes:
    the initial ensemble before the first step and for dynamics that assign a new array; for in-place updates the positions of the
    first update (with NaN replaced by the default post-processing), and with a post-processing that only
    writes into the array the current positions. *)
Theorem C18_first_entry : forall (K V : Type) (O : KOps K) b p inner (c : cfg K V) x0 names log s m,
  inner_keeps inner -> pp_is c p -> In "x" names -> mrun b p inner c x0 names log s m ->
  exists a t, m_hist m = a :: t /\
    match log with
    | [] => deref m a = Some x0
    | (y, x) :: _ => x = map (map (c_pp c)) y /\
        match b, p with
        | InPlace, PNumpy nan _ => deref m a = Some (map (map nan) y)
        | InPlace, PNew _ => deref m a = Some y
        | InPlace, PWrite _ => deref m a = Some (s_x s)
        | NewArray, _ => deref m a = Some x0
        end
    end.
Proof. exact @first_entry. Qed.
Print Assumptions C18_first_entry.

(** C18. In particular, the claim "the first entry is the initial ensemble" fails for CBO after every first step that moved a particle. *)
Theorem C18_initial_ensemble_kept_refuted : forall (K V : Type) (O : KOps K) nan clip inner (c : cfg K V) x0 names log s m y x,
  inner_keeps inner -> pp_is c (PNumpy nan clip) -> In "x" names ->
  mrun InPlace (PNumpy nan clip) inner c x0 names ((y, x) :: log) s m -> x <> map (map clip) x0 ->
  exists a t w, m_hist m = a :: t /\ deref m a = Some w /\ w <> x0 /\ x = map (map clip) w.
Proof. exact @first_entry_lost. Qed.
Print Assumptions C18_initial_ensemble_kept_refuted.
Example C18_refuted_example : exists y x s m, mrun InPlace al_p cbo_step al_c al_x0 ["x"] [(y, x)] s m /\ x <> map (map zclip) al_x0 /\
  hist_get "x" (s_hist s) = Some [HX al_x0; HX x] /\ map (deref m) (m_hist m) = [Some x; Some x].
Proof. exact al_lost. Qed.
Example C18_kept_example : exists y x s m, mrun NewArray al_p cbo_step al_c al_x0 ["x"] [(y, x)] s m /\ x <> al_x0 /\ map (deref m) (m_hist m) = [Some al_x0; Some x].
Proof. exact al_kept. Qed.
Example C18_hypotheses : inner_keeps (@cbo_step Z Z _) /\ pp_is al_c al_p.
Proof. exact (conj cbo_keeps al_pp). Qed.

(** C18. The two kinds of dynamics: the plain update and the hypersurface update leave the bookkeeping of the history alone. *)
Theorem C18_dynamics : forall (K V : Type) (O : KOps K), inner_keeps (@cbo_step K V O) /\
  forall S : @surface K V, inner_keeps (fun (c : cfg K V) o s => bind (hyper_inner S c o s tt) (fun r => Ok (fst r))).
Proof. exact (fun K V O => conj (@cbo_keeps K V O) (@hyper_keeps K V)). Qed.
Print Assumptions C18_dynamics.

(** C18. All later entries are copies and keep the recorded value; self.x always holds the current positions. *)
Theorem C18_later_entries : forall (K V : Type) (O : KOps K) b p inner (c : cfg K V) x0 names log s m,
  inner_keeps inner -> pp_is c p -> In "x" names -> mrun b p inner c x0 names log s m ->
  deref m (m_x m) = Some (s_x s) /\
  exists a t h, m_hist m = a :: t /\ map (deref m) t = map Some h /\ hist_get "x" (s_hist s) = Some (HX x0 :: map (@HX K V) h).
Proof. exact @later_entries. Qed.
Print Assumptions C18_later_entries.

(** C19. k dynamics built with the same names and one list object that held E before: the list holds each tracker k times,
    whatever steps the dynamics make in between. *)
Theorem C19_trackers : forall (K V : Type) (O : KOps K) E names k L (D : list (st K V)), family E names k L D ->
  Forall2 same_kind L (E ++ concat (repeat (map known_track names) k)) /\ length D = k.
Proof. exact @family_tracks. Qed.
Print Assumptions C19_trackers.

(** C19. So a recording step of any of the k dynamics, not only the last one, adds k times as many entries as the names ask for. *)
Theorem C19_independent_records_refuted : forall (K V : Type) (O : KOps K) names k L (D : list (st K V)) c o i s s' n,
  family [] names k L D -> nth_error D i = Some s -> step c o (set_tracks L s) = Ok s' ->
  s_it s mod s_save s = 0 -> own_key n -> In n names ->
  exists old v, hist_get n (s_hist s) = Some old /\ hist_get n (s_hist s') = Some (old ++ repeat v (k * times n names)).
Proof. exact @family_duplicates. Qed.
Print Assumptions C19_independent_records_refuted.
Example C19_refuted_example : exists L D s s' x, family [] ["energy"; "x"] 2 L D /\ nth_error D 0 = Some s /\ step al_c al_o (set_tracks L s) = Ok s' /\
  L = [TEnergy; TX; TEnergy; TX] /\ hist_get "x" (s_hist s) = Some [HX al_x0] /\ hist_get "x" (s_hist s') = Some [HX al_x0; HX x; HX x].
Proof. exact fa_two. Qed.

(** C19. If the list is shared with a dynamic that tracks a name the first one does not, the first one cannot make a recording step any more. *)
Theorem C19_other_names_raise : forall (K V : Type) (O : KOps K) (c : cfg K V) o L names (s s' : st K V) n,
  own_key n -> In n names -> hist_get n (s_hist s) = None -> s_it s mod s_save s = 0 ->
  (forall b, ~ In (TDefault n b) L) -> step c o (set_tracks (L ++ map known_track names) s) <> Ok s'.
Proof. exact @shared_key_error. Qed.
Print Assumptions C19_other_names_raise.
Example C19_raise_example : exists s, build al_c al_x0 false (Fin 1%Z) (Fin 1%Z) (Fin 1%Z) (Fin 1%Z) (fun _ => [0; 1; 2]) ["energy"] None ([], []) = Ok ([TEnergy], [s]) /\
  hist_get "x" (s_hist s) = None /\ s_it s mod s_save s = 0 /\ (exists s', step al_c al_o s = Ok s') /\
  step al_c al_o (set_tracks ([TEnergy] ++ map known_track ["x"]) s) = Err KeyError.
Proof. exact fa_error. Qed.
