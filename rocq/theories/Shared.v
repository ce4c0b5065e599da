(** * Dynamics built with one [extra_tracks] list

    init_history (pdyn.py:464-495) does [self.tracks = extra_tracks] and appends to it, so that all dynamics built from
    one track_args dictionary with the key 'extra_tracks' have the same list object as [self.tracks].  [L] below is the
    content of that object and [D] the dynamics built so far, whose field s_tracks is not used: each operation loads the
    shared list and stores it back. *)
From Coq Require Import String List Arith Bool.
From Verif Require Import Scalar Np State Pdyn.
Import ListNotations.
Open Scope nat_scope.

Section Shared.
  Context {K V : Type} {O : KOps K}.
  Notation F := (fl K).
  Notation st := (st K V).
  Notation cfg := (cfg K V).
  Notation orc := (orc V).

  (** construction with extra_tracks = the shared list *)
  Definition build (c : cfg) (x0 : arr V) (checked : bool) (alpha sigma lamda dt : F) (perm0 : nat -> list nat) (names : list string) (save : option nat)
      (w : list trk * list st) : res (list trk * list st) :=
    s <- init c x0 checked alpha sigma lamda dt perm0 (Some names) (fst w) save ;;
    Ok (s_tracks s, snd w ++ [s]).
  (** dynamic i makes a step *)
  Definition use (c : cfg) (o : orc) (i : nat) (w : list trk * list st) : res (list trk * list st) :=
    match nth_error (snd w) i with
    | None => Err IndexError
    | Some s =>
        s' <- step c o (set_tracks (fst w) s) ;;
        Ok (s_tracks s', mapi (fun j t => if j =? i then s' else t) (snd w))
    end.
End Shared.
