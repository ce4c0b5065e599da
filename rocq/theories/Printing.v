(** * What optimize prints

    pdyn.py:341-363 (optimize), 366-376 (print_cur_state of ParticleDynamic: nothing), 378-394 (print_post_opt), 940-946 (print_cur_state of CBXDynamic).
    A line is its kind and the values in it; texts and the three decimals of the time are left out.  Warnings and the lines of resampling objects are not modelled. *)
From Coq Require Import List Arith Bool Reals.
From Verif Require Import Scalar Np State Pdyn Optimize.
Import ListNotations.
Open Scope nat_scope.
Open Scope list_scope.

Inductive line : Type :=
| LDots | LStarting | LDashes | LFinished
| LTime (t : fl R) (f_min : list (fl R))
| LEvals (num_f_eval : list nat)
| LAlpha (alpha : arr (fl R))
| LBest (best_energy : list (fl R)).

Section Printing.
  Context {V : Type}.
  Notation st := (st R V).
  Notation cfg := (cfg R V).
  Notation orc := (orc V).

  (** pdyn.py:343-346 *)
  Definition print_pre_opt (verbosity : nat) : list line := if 0 <? verbosity then [LDots; LStarting; LDots] else [].
  (** print_cur_state, pdyn.py:366-376 and 940-946 ([cbx]: the dynamic is a CBXDynamic) *)
  Definition print_cur_state (cbx : bool) (verbosity : nat) (s : st) : list line :=
    if cbx then (if 0 <? verbosity then [LTime (s_t s) (s_fmin s); LEvals (s_nfe s)] else []) ++ (if 1 <? verbosity then [LAlpha (s_alpha s)] else []) else [].
  (** print_post_opt, pdyn.py:378-394 *)
  Definition print_post_opt (verbosity : nat) (s : st) : list line := if 0 <? verbosity then [LDashes; LFinished; LBest (s_be s); LDashes] else [].

  (** the loop, pdyn.py:357-361, with the lines printed by it *)
  Fixpoint shown_loop (c : cfg) (stepf : orc -> st -> res st) (upd : st -> res st) (cbx : bool) (verbosity p : nat) (os : nat -> orc) (fuel i : nat) (s : st) : list line * option (res st) :=
    match terminate c s with
    | Err e => ([], Some (Err e))
    | Ok (true, s') => ([], Some (Ok s'))
    | Ok (false, s') =>
        match fuel with
        | O => ([], None)
        | S fuel' =>
            match (s1 <- stepf (os i) s' ;; s2 <- upd s1 ;; if p =? 0 then Err ZeroDivision else Ok s2) with
            | Err e => ([], Some (Err e))
            | Ok s2 =>
                let q := shown_loop c stepf upd cbx verbosity p os fuel' (S i) s2 in
                ((if (s_it s2 - 1) mod p =? 0 then print_cur_state cbx verbosity s2 else []) ++ fst q, snd q)
            end
        end
    end.
  (** optimize, pdyn.py:324-364: the lines printed (also by a call that raises), and the result *)
  Definition optimize_shown (c : cfg) (stepf : orc -> st -> res st) (cbx : bool) (verbosity : nat) (print_int : option nat) (a : sched_arg V) (os : nat -> orc) (fuel : nat) (s : st)
      : list line * option (res (list V * st)) :=
    let p := match print_int with Some p => p | None => s_save s end in
    let q := shown_loop c stepf (resolve cbx a) cbx verbosity p os fuel 0 s in
    match snd q with
    | None => (print_pre_opt verbosity ++ fst q, None)
    | Some (Err e) => (print_pre_opt verbosity ++ fst q, Some (Err e))
    | Some (Ok s') => (print_pre_opt verbosity ++ fst q ++ print_post_opt verbosity s', Some (Ok (s_bp s', s')))
    end.
End Printing.
