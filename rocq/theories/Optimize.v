(** * The arguments of optimize

    pdyn.py:313-364 (optimize, default_sched), 412-430 (init_term), 803-815 (default_sched of CBXDynamic), cbs.py:30-52 (CBS.run, CBS.optimize).
    Printing is not modelled; what can go wrong around it is.  AttributeError is [TypeError] here. *)
From Coq Require Import List Arith Bool Reals.
From Verif Require Import Scalar Np State Pdyn Sched.
Import ListNotations.
Open Scope R_scope.

Section Optimize.
  Context {V : Type}.
  Notation st := (st R V).
  Notation cfg := (cfg R V).
  Notation orc := (orc V).

  (** The argument sched: None, 'default', 'effective', an object with an update method ([is_scheduler]: an instance of the class scheduler; multiply and
      effective_sample_size are not, scheduler.py:55, 85, 110), anything else. *)
  Inductive sched_arg : Type :=
  | SNone | SDefault | SEffective
  | SUpdate (u : st -> res st) (is_scheduler : bool)
  | SOther.

  (** default_sched: scheduler([]) (pdyn.py:322), scheduler([multiply(name='alpha', factor=1.05)]) for CBXDynamic (815); maximum 1e5 (scheduler.py:27) *)
  Definition default_sched (cbx : bool) : st -> res st :=
    if cbx then scheduler_update [multiply_update PAlpha (Fin (21 / 20)) (Fin 100000)] else scheduler_update [].
  (** pdyn.py:348-355; 'effective' has eta = 0.5, maximum 1e5, 15 iterations (scheduler.py:137) *)
  Definition resolve (cbx : bool) (a : sched_arg) : st -> res st :=
    match a with
    | SNone => scheduler_update []
    | SDefault => default_sched cbx
    | SEffective => ess_update (1 / 2) 100000 15
    | SUpdate u _ => u
    | SOther => fun _ => Err TypeError
    end.

  (** the loop, pdyn.py:357-361; [(self.it - 1) % print_int] *)
  Fixpoint opt_loop (c : cfg) (stepf : orc -> st -> res st) (upd : st -> res st) (p : nat) (os : nat -> orc) (fuel i : nat) (s : st) : option (res st) :=
    match terminate c s with
    | Err e => Some (Err e)
    | Ok (true, s') => Some (Ok s')
    | Ok (false, s') =>
        match fuel with
        | O => None
        | S fuel' =>
            match (s1 <- stepf (os i) s' ;; s2 <- upd s1 ;; if (p =? 0)%nat then Err ZeroDivision else Ok s2) with
            | Err e => Some (Err e)
            | Ok s2 => opt_loop c stepf upd p os fuel' (S i) s2
            end
        end
    end.
  (** optimize, pdyn.py:324-364: the returned best particles and the state left *)
  Definition optimize (c : cfg) (stepf : orc -> st -> res st) (cbx : bool) (print_int : option nat) (a : sched_arg) (os : nat -> orc) (fuel : nat) (s : st) : option (res (list V * st)) :=
    let p := match print_int with Some p => p | None => s_save s end in
    match opt_loop c stepf (resolve cbx a) p os fuel 0 s with
    | None => None
    | Some r => Some (s' <- r ;; Ok (s_bp s', s'))
    end.

  (** CBS.run and CBS.optimize, cbs.py:30-49; [stepf] is CBS.step; nothing is returned *)
  Definition cbs_resolve (a : sched_arg) : res (st -> res st) :=
    match a with
    | SNone | SDefault => Ok (scheduler_update [])
    | SUpdate u true => Ok u
    | _ => Err RuntimeErr
    end.
  Definition cbs_optimize (c : cfg) (stepf : orc -> st -> res st) (a : sched_arg) (os : nat -> orc) (fuel : nat) (s : st) : option (res st) :=
    match cbs_resolve a with
    | Err e => Some (Err e)
    | Ok u => optimize_loop c stepf u os fuel 0 s
    end.

  (** init_term, pdyn.py:412-430 (names of criteria are resolved in Dispatch.v) *)
  Definition init_term (term_criteria : option (list (crit R V))) (max_it : option nat) : list (crit R V) :=
    match term_criteria with None => [CMaxIt max_it] | Some ks => ks end.
End Optimize.
Arguments sched_arg : clear implicits.
