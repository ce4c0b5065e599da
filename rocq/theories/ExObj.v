(** * Objectives: examples *)
From Coq Require Import String List Arith Bool.
From Verif Require Import Scalar Np Nd Objective ObjSpec ObjFacts.
Import ListNotations.
Open Scope nat_scope.
Open Scope list_scope.

(** the sum of the coordinates, as '1D' function of a vector and as '2D' function of a matrix *)
Definition total (l : list nat) : nat := fold_right Nat.add 0 l.
Definition f1 (v : nd nat) : res (nd nat) := match shape v with [d] => Ok (mknd [] (fun _ => total (point v d []))) | _ => Err ShapeError end.
Definition f2 (v : nd nat) : res (nd nat) := match shape v with [P; d] => Ok (mknd [P] (fun i => total (point v d i))) | _ => Err ShapeError end.
Definition f3 (v : nd nat) : res (nd nat) := match shape v with [M; N; d] => Ok (mknd [M; N] (fun i => total (point v d i))) | _ => Err ShapeError end.
Definition fk (k : kind) : nd nat -> res (nd nat) := match k with K1D => f1 | K2D => f2 | K3D => f3 end.
Lemma fk_objective : forall k d, objective k (fk k) d total.
Proof.
  intros [] d; cbn.
  - exists []. split; auto. intros v H. unfold f1. rewrite H. eexists. split; [reflexivity|]. split; auto.
  - intros P v H. unfold f2. rewrite H. eexists. split; [reflexivity|]. left. split; auto.
  - intros M N v H. unfold f3. rewrite H. eexists. split; [reflexivity|]. split; auto.
Qed.
Definition ex_x : nd nat := mknd [2; 3; 2] (fun i => match i with [m; n; j] => 100 * m + 10 * n + j | _ => 0 end).
(** a function that returns all coordinates *)
Definition f_id (v : nd nat) : res (nd nat) := Ok v.
Definition values (k : kind) : res (list nat * list nat) := y <- apply_kind k (fk k) ex_x ;; Ok (shape y, map (get y) [[0;0]; [0;1]; [0;2]; [1;0]; [1;1]; [1;2]]).
Lemma ex_values : forall k, values k = Ok ([2; 3], [1; 21; 41; 201; 221; 241]).
Proof. intros []; vm_compute; reflexivity. Qed.
Lemma ex_counts : forall k, (r <- call (apply_kind k (fk k)) 5 ex_x ;; Ok (snd r)) = Ok 11.
Proof. intros []; vm_compute; reflexivity. Qed.
Lemma ex_rejected : check_f_dims (apply_kind K1D f_id) 2 3 true ex_x [0; 0] = Err ValueError /\ check_f_dims (apply_kind K2D f_id) 2 3 true ex_x [0; 0] = Err ValueError /\
  forall k, check_f_dims (apply_kind k (fk k)) 2 3 true ex_x [0; 0] = Ok [3; 3].
Proof. split; [vm_compute; reflexivity|]. split; [vm_compute; reflexivity|]. intros []; vm_compute; reflexivity. Qed.
(** an ensemble of matrices *)
Definition ex_x4 : nd nat := mknd [2; 3; 2; 2] (fun _ => 1).
Lemma ex_higher : forall k, k <> K3D -> check_f_dims (apply_kind k (fk k)) 2 3 true ex_x4 [0; 0] = Err ValueError.
Proof. intros [] H; [| |congruence]; vm_compute; reflexivity. Qed.
