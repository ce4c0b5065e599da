(** * Resampling rules (cbx/utils/resampling.py) *)
From Coq Require Import List Arith Bool.
From Verif Require Import Scalar Np State Pdyn.
Import ListNotations.

Section Resampling.
  Context {K V : Type} {O : KOps K}.
  Notation F := (fl K).
  Notation st := (st K V).
  Notation cfg := (@cfg K V).
  Notation orc := (@orc V).

  (** ensemble_update_resampling.__call__, resampling.py:102-103. *)
  Definition ens_call (thresh : F) (s : st) : list nat :=
    np_where (map (fun u => fltb u thresh) (s_udiff s)).

  (** State of a loss_update_resampling object, resampling.py:162-164, 177-181; [None] is
      [initalized = False]. *)
  Record lur : Type := mklur { l_best : list F; l_wait : list nat }.

  (** check_energy_wait, resampling.py:177-181. *)
  Definition check_energy_wait (M : nat) (o : option lur) : lur :=
    match o with Some l => l | None => mklur (repeat PInf M) (repeat 0 M) end.

  (** loss_update_resampling.__call__, resampling.py:166-175 ([wait_thresh] a natural number;
      integer [np.mod(w, 0)] is 0 in NumPy and [w] in Coq, so 0 is outside the model). *)
  Definition lur_call (thresh : nat) (s : st) (o : option lur) : res (lur * list nat) :=
    let l := check_energy_wait (s_M s) o in
    let wait := map S (l_wait l) in
    if length (s_be s) =? length (l_best l) then
      let u := map2 (fun b e => fltb e b) (l_best l) (s_be s) in
      let wait1 := select u (repeat 0 (length wait)) wait in
      let best1 := select u (s_be s) (l_best l) in
      let idx := np_where (map (fun w => thresh <=? w) wait1) in
      Ok (mklur best1 (map (fun w => w mod thresh) wait1), idx)
    else Err ShapeError.

  (** State of a consensus_stagnation object, resampling.py:107-111, 138-140; [cs_old = None]:
      the attribute does not exist yet. *)
  Record cstag : Type := mkcstag { cs_old : option (arr V); cs_upd : list (list F) }.

  (** [l[-p:]]; for [p = 0] this is the whole list. *)
  Definition last_n {A} (p : nat) (l : list A) : list A :=
    match p with 0 => l | _ => skipn (length l - p) l end.

  (** [np.array(rows).max(axis=0)] for a non-empty list of rows; NaN propagates. *)
  Definition col_max (rows : list (list F)) : list F :=
    match rows with [] => [] | r :: rs => fold_left (map2 fmax) rs r end.

  (** set_consensus_old, resampling.py:138-140; [vzero] is [v -> 0 * v]. *)
  Definition set_consensus_old (vzero : V -> V) (s : st) (cpt : arr V) : res (arr V) :=
    scatter (IRuns (s_active s)) (map (fun row => map vzero (firstn 1 row)) (s_x s)) cpt.

  (** check_consensus_update and __call__, resampling.py:114-136; [norm1] is the norm of one
      particle.  A dynamic which has no consensus yet raises. *)
  Definition cstag_call (c : cfg) (norm1 : V -> F) (vzero : V -> V) (patience : nat) (thresh : F) (s : st)
      (o : cstag) : res (cstag * list nat) :=
    match s_cons s with
    | None => Err TypeError
    | Some cpt =>
        wt0 <- put1 (s_active s) (repeat PInf (s_M s)) [Fin k0] ;;
        p <- (match cs_old o with
              | Some old =>
                  oa <- takeM old (s_active s) ;;
                  df <- bc2 (c_vsub c) cpt oa ;;
                  col <- mapM (fun row => take1 (map norm1 row) 0) df ;;
                  diffs <- put1 (s_active s) (repeat (Fin k0) (s_M s)) col ;;
                  let upd := last_n patience (cs_upd o ++ [diffs]) in
                  Ok (upd, map2 fadd wt0 (col_max upd))
              | None => Ok (cs_upd o, map (fun w => fadd w PInf) wt0)
              end) ;;
        old' <- set_consensus_old vzero s cpt ;;
        Ok (mkcstag (Some old') (fst p), np_where (map (fun w => fltb w thresh) (snd p)))
    end.

  (** A rule of a resampling object together with its own state. *)
  Inductive rule : Type :=
  | REns (thresh : F)
  | RLoss (thresh : nat) (o : option lur)
  | RCons (patience : nat) (thresh : F) (o : cstag)
  | RCustom (g : st -> list nat).

  Definition rule_call (c : cfg) (norm1 : V -> F) (vzero : V -> V) (s : st) (r : rule) : res (rule * list nat) :=
    match r with
    | REns t => Ok (r, ens_call t s)
    | RLoss t o => p <- lur_call t s o ;; Ok (RLoss t (Some (fst p)), snd p)
    | RCons n t o => p <- cstag_call c norm1 vzero n t s o ;; Ok (RCons n t (fst p), snd p)
    | RCustom g => Ok (r, g s)
    end.

  (** [np.unique] on indices: increasing, without repetition. *)
  Fixpoint insert_u (a : nat) (l : list nat) : list nat :=
    match l with
    | [] => [a]
    | b :: l' => if a <? b then a :: l else if a =? b then l else b :: insert_u a l'
    end.
  Definition unique (l : list nat) : list nat := fold_right insert_u [] l.

  (** apply_resampling_default, resampling.py:4-6 (for [var_name = 'x']); [amp] is
      [sigma_indep * sqrt(dt)], [z] the sampled array of shape [(len(idx), N, d)]. *)
  Definition apply_default (c : cfg) (amp : F) (z : nat -> nat -> V) (idx : list nat) (s : st) : res st :=
    rows <- takeM (s_x s) idx ;;
    let zs := map (fun k => map (fun n => c_vscale c amp (z k n)) (seq 0 (s_N s))) (seq 0 (length idx)) in
    new <- bc2 (c_vadd c) rows zs ;;
    x' <- scatter (IRuns idx) (s_x s) new ;;
    Ok (set_x x' s).

  (** A resampling object, resampling.py:25-38: the rules, num_resampling and the best consensus
      with its energy. *)
  Record rsm : Type := mkrsm {
    r_rules : list rule;
    r_num : option (list nat);
    r_bestc : option (arr V * arr F)
  }.

  (** _track_best_consensus, resampling.py:64-82 (switched on).  [consensus_energy] is an
      array of shape [(len(idx), 1)]. *)
  Definition track_best_consensus (c : cfg) (idx : list nat) (s : st) (b : option (arr V * arr F))
      : res (option (arr V * arr F) * st) :=
    match s_cons s with
    | None => Err TypeError
    | Some cpt =>
        pts <- takeM cpt idx ;;
        let '(ce, s1) := eval_f c pts s in
        match b with
        | None =>
            be <- scatter (IRuns idx) (repeat [PInf] (s_M s)) ce ;;
            Ok (Some (cpt, be), s1)
        | Some (bc, be) =>
            old <- takeM be idx ;;
            cmp <- bc2 (fun a e => fltb a e) ce old ;;
            let idx2 := np_where (map (existsb (fun q => q)) cmp) in
            sel <- takeM idx idx2 ;;
            pts2 <- takeM cpt sel ;;
            bc' <- scatter (IRuns sel) bc pts2 ;;
            ce2 <- takeM ce idx2 ;;
            be' <- scatter (IRuns sel) be ce2 ;;
            Ok (Some (bc', be'), s1)
        end
    end.

  (** The rules are called in order. *)
  Fixpoint call_rules (c : cfg) (norm1 : V -> F) (vzero : V -> V) (s : st) (rs : list rule)
      : res (list rule * list (list nat)) :=
    match rs with
    | [] => Ok ([], [])
    | r :: rs' =>
        p <- rule_call c norm1 vzero s r ;;
        q <- call_rules c norm1 vzero s rs' ;;
        Ok (fst p :: fst q, snd p :: snd q)
    end.

  (** resampling.__call__, resampling.py:40-62; [np.concatenate([])] raises.  [track] is
      track_best_consensus; an index outside [0..M-1] raises. *)
  Definition resampling_call (c : cfg) (norm1 : V -> F) (vzero : V -> V) (amp : F) (track : bool)
      (z : nat -> nat -> V) (r : rsm) (s : st) : res (rsm * st) :=
    let num := match r_num r with Some l => l | None => repeat 0 (s_M s) end in
    p <- call_rules c norm1 vzero s (r_rules r) ;;
    match snd p with
    | [] => Err ValueError
    | sels =>
        let idx := unique (concat sels) in
        match idx with
        | [] => Ok (mkrsm (fst p) (Some num) (r_bestc r), s)
        | _ =>
            s1 <- apply_default c amp z idx s ;;
            if forallb (fun i => i <? length num) idx then
              let num' := add_at idx 1 num in
              if track then
                q <- track_best_consensus c idx s1 (r_bestc r) ;;
                Ok (mkrsm (fst p) (Some num') (fst q), snd q)
              else Ok (mkrsm (fst p) (Some num') (r_bestc r), s1)
            else Err IndexError
        end
    end.
End Resampling.
Arguments rule K V : clear implicits.
Arguments rsm K V : clear implicits.
Arguments lur K : clear implicits.
Arguments cstag K V : clear implicits.
