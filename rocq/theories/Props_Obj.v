(** * C57, C58: objective promotion and ensemble shapes *)
From Coq Require Import String List Arith Bool ZArith.
From Verif Require Import Scalar Np Nd State Pdyn Variant Objective ObjSpec ObjFacts ExObj Alias AliasSpec AliasFacts ExZ ExAlias.
Import ListNotations.
Open Scope nat_scope.
Open Scope list_scope.

(** C57. The promoted function at an (M,N,d) ensemble is the given function at each particle. *)
Theorem C57_pointwise : forall (A B : Type) k f (g : list A -> B) d M N (x : nd A), 0 < M -> 0 < N -> 0 < d ->
  match k with K1D => objective_1D f d g | K2D => objective_2D f d g | K3D => objective_3D f d g end ->
  shape x = [M; N; d] -> pointwise (apply_kind k f) g x M N d.
Proof. exact @promotion_pointwise. Qed.
Print Assumptions C57_pointwise.
Example C57_pointwise_example : (forall k d, match k with K1D => objective_1D (fk k) d total | K2D => objective_2D (fk k) d total | K3D => objective_3D (fk k) d total end) /\
  shape ex_x = [2; 3; 2] /\ forall k, values k = Ok ([2; 3], [1; 21; 41; 201; 221; 241]).
Proof. exact (conj fk_objective (conj eq_refl ex_values)). Qed.

(** C57. '1D' and '2D' functions also take a matrix (one run) or a vector (one particle). *)
Theorem C57_matrix : forall (A B : Type) k f (g : list A -> B) d N (x : nd A), k <> K3D -> 0 < N -> 0 < d ->
  match k with K1D => objective_1D f d g | K2D => objective_2D f d g | K3D => objective_3D f d g end -> shape x = [N; d] ->
  exists y, apply_kind k f x = Ok y /\ shape y = [1; N] /\ forall n, n < N -> get y [0; n] = g (point x d [n]).
Proof. exact @promotion_matrix. Qed.
Print Assumptions C57_matrix.
Theorem C57_vector : forall (A B : Type) k f (g : list A -> B) d (x : nd A), k <> K3D -> 0 < d ->
  match k with K1D => objective_1D f d g | K2D => objective_2D f d g | K3D => objective_3D f d g end -> shape x = [d] ->
  exists y, apply_kind k f x = Ok y /\ shape y = [1; 1] /\ get y [0; 0] = g (point x d []).
Proof. exact @promotion_vector. Qed.
Print Assumptions C57_vector.

(** C57. Each call adds the number of particles to the counter. *)
Theorem C57_counter : forall (A B : Type) (ap : nd A -> res (nd B)) n (x : nd A) s d y n', shape x = s ++ [d] -> 1 <= length s ->
  call ap n x = Ok (y, n') -> ap x = Ok y /\ n' = n + entries s.
Proof. exact @counter. Qed.
Print Assumptions C57_counter.
Example C57_counter_example : forall k, bind (call (apply_kind k (fk k)) 5 ex_x) (fun r => Ok (snd r)) = Ok 11.
Proof. exact ex_counts. Qed.

(** C57. The constructor accepts a '1D' function exactly if its result has one entry, a '2D' function exactly if
    its result for M*N points has M*N entries; an accepted function has been counted once per particle of each run. *)
Theorem C57_check_1D : forall (A B : Type) (f : nd A -> res (nd B)) M N d (z : nd A) nfe rs, 0 < M -> 0 < N -> 0 < d -> shape z = [M; N; d] ->
  (forall v, shape v = [d] -> exists r, f v = Ok r /\ shape r = rs) ->
  (exists n, check_f_dims (apply_kind K1D f) M N true z nfe = Ok n) <-> entries rs = 1.
Proof. exact @check_1D. Qed.
Print Assumptions C57_check_1D.
Theorem C57_check_2D : forall (A B : Type) (f : nd A -> res (nd B)) M N d (z : nd A) nfe k, 0 < M -> 0 < N -> 0 < d -> shape z = [M; N; d] ->
  (forall v, shape v = [M * N; d] -> exists r, f v = Ok r /\ entries (shape r) = k) ->
  (exists n, check_f_dims (apply_kind K2D f) M N true z nfe = Ok n) <-> k = M * N.
Proof. exact @check_2D. Qed.
Print Assumptions C57_check_2D.
Theorem C57_check_counts : forall (A B : Type) (f : nd A -> res (nd B)) M N z nfe n, check_f_dims f M N true z nfe = Ok n -> n = map (fun k => k + N) nfe.
Proof. exact @check_counts. Qed.
Print Assumptions C57_check_counts.
Example C57_check_example : check_f_dims (apply_kind K1D f_id) 2 3 true ex_x [0; 0] = Err ValueError /\ check_f_dims (apply_kind K2D f_id) 2 3 true ex_x [0; 0] = Err ValueError /\
  forall k, check_f_dims (apply_kind k (fk k)) 2 3 true ex_x [0; 0] = Ok [3; 3].
Proof. exact ex_rejected. Qed.

(** C57. Other values of f_dim and objects that cannot be called are rejected. *)
Theorem C57_promote : forall callable f_dim, promote callable f_dim =
  if negb callable then Err TypeError else match f_dim with "1D" => Ok K1D | "2D" => Ok K2D | "3D" => Ok K3D | _ => Err ValueError end%string.
Proof. exact promote_rejects. Qed.
Print Assumptions C57_promote.

(** C57. init_f: the counters start at 0 for every run and hold N for each run after the optional check; every pointwise objective of the named kind is accepted. *)
Theorem C57_init_f : forall (A B : Type) callable f_dim check (f : nd A -> res (nd B)) M N z k n, init_f callable f_dim check f M N z = Ok (k, n) ->
  promote callable f_dim = Ok k /\ length n = M /\ (forall c, In c n -> c = if check then N else 0) /\ (check = true -> exists y, apply_kind k f z = Ok y /\ shape y = [M; N]).
Proof. exact @init_f_char. Qed.
Print Assumptions C57_init_f.
Theorem C57_init_f_accepts : forall (A B : Type) k f_dim check f (g : list A -> B) d M N (z : nd A), 0 < M -> 0 < N -> 0 < d -> promote true f_dim = Ok k ->
  match k with K1D => objective_1D f d g | K2D => objective_2D f d g | K3D => objective_3D f d g end -> shape z = [M; N; d] ->
  exists n, init_f true f_dim check f M N z = Ok (k, n).
Proof. exact @init_f_accepts. Qed.
Print Assumptions C57_init_f_accepts.
Example C57_init_f_example : init_f true "2D" true (fk K2D) 2 3 ex_x = Ok (K2D, [3; 3]) /\ init_f true "1D" false (fk K1D) 2 3 ex_x = Ok (K1D, [0; 0]).
Proof. split; reflexivity. Qed.

(** C57. "Exactly": for ensembles whose particles have two or more axes, the constructor rejects every '1D' and '2D' objective, also pointwise ones. *)
Theorem C57_all_pointwise_accepted_refuted : forall (A B : Type) k (f : nd A -> res (nd B)) g M N s e d (z : nd A) nfe, k <> K3D -> 0 < M -> 2 <= N -> 0 < entries s -> 0 < e -> 0 < d ->
  shape z = M :: N :: s ++ [e; d] ->
  match k with K1D => objective_1D f d g | K2D => objective_2D f d g | K3D => objective_3D f d g end ->
  check_f_dims (apply_kind k f) M N true z nfe = Err ValueError.
Proof. exact @check_higher. Qed.
Print Assumptions C57_all_pointwise_accepted_refuted.
Example C57_refuted_example : forall k, k <> K3D -> check_f_dims (apply_kind k (fk k)) 2 3 true ex_x4 [0; 0] = Err ValueError.
Proof. exact ex_higher. Qed.

(** C58. A vector becomes one run of one particle, a matrix one run, arrays with more axes are kept; every coordinate is where it was. *)
Theorem C58_shapes : forall (A : Type) (x : nd A) M0 N0 d0 gen X M N ds, init_x (Some x) M0 N0 d0 gen = Ok (X, M, N, ds) ->
  shape X = M :: N :: ds /\
  match shape x with
  | [] => False
  | [d] => M = 1 /\ N = 1 /\ ds = [d] /\ forall j, get X [0; 0; j] = get x [j]
  | [n; d] => M = 1 /\ N = n /\ ds = [d] /\ forall n j, get X [0; n; j] = get x [n; j]
  | s => s = M :: N :: ds /\ forall i, get X i = get x i
  end.
Proof. exact @init_x_shapes. Qed.
Print Assumptions C58_shapes.
Theorem C58_accepts : forall (A : Type) (x : nd A) M0 N0 d0 gen, shape x <> [] -> exists r, init_x (Some x) M0 N0 d0 gen = Ok r.
Proof. exact @init_x_accepts. Qed.
Print Assumptions C58_accepts.
Theorem C58_none : forall (A : Type) M N (gen : nat -> nat -> nat -> nd A), init_x None M N None gen = Err RuntimeErr.
Proof. exact @init_x_none. Qed.
Print Assumptions C58_none.
Theorem C58_drawn : forall (A : Type) M N d (gen : nat -> nat -> nat -> nd A), (forall M N d, shape (gen M N d) = [M; N; d]) ->
  init_x None M N (Some d) gen = Ok (gen M N d, M, N, [d]).
Proof. exact @init_x_drawn. Qed.
Print Assumptions C58_drawn.

(** C58. The user's array keeps its content in every execution (any inner step, any post-processing, resets, any tracking) and is
    neither the live array nor in the history. *)
Theorem C58_user_array_kept : forall (K V : Type) (O : KOps K) b p inner (c : cfg K V) x0 s m, mexec b p inner c x0 s m ->
  deref m (m_user m) = Some x0 /\ m_user m <> m_x m /\ ~ In (m_user m) (m_hist m).
Proof. exact @user_array_kept. Qed.
Print Assumptions C58_user_array_kept.
Example C58_user_example : exists s m, mexec InPlace al_p cbo_step al_c al_x0 s m /\ s_x s <> al_x0 /\ s_it s = 1 /\ deref m (m_user m) = Some al_x0.
Proof. exact al_user. Qed.
