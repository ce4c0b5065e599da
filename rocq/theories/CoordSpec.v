(** * Specification: maps that treat every coordinate by itself *)
From Coq Require Import List Arith Bool Reals.
From Verif Require Import Scalar Np State Pdyn RVec Cbo Memory MemSpec MemSymSpec SimSpec SessSpec.
Import ListNotations.
Open Scope R_scope.

(** [(i, (a, b))] stands for the coordinate a * x_i + b of the image; a list of them for a map R^d -> R^d'.
    Coordinates can be dropped, repeated, put in another order, shifted and given other units. *)
Definition coordinate : Type := nat * (R * R).
Definition coord_map (m : list coordinate) (p : list R) : list R := map (fun t => fst (snd t) * nth (fst t) p 0 + snd (snd t)) m.
Definition reads (d : nat) (m : list coordinate) : Prop := forall t, In t m -> (fst t < d)%nat.
(** what it does to differences of points, and the same with all units 1 *)
Definition linear_part (m : list coordinate) : list coordinate := map (fun t => (fst t, (fst (snd t), 0))) m.
Definition selection (m : list coordinate) : list coordinate := map (fun t => (fst t, (1, 0))) m.
(** the same map on arrays of floats *)
Definition coord_image (m : list coordinate) (v : vec) : vec := map (fun t => fadd (fmul (Fin (fst (snd t))) (nth (fst t) v NaN)) (Fin (snd (snd t)))) m.
(** how the draws correspond: anisotropic noise takes the same numbers, constant noise numbers in the new units *)
Definition draw_image (k : noise_model) (m : list coordinate) : list coordinate := match k with NAniso => selection m | _ => linear_part m end.

(** the criteria which do not look at the norm of the update *)
Definition no_norm (q : crit R vec) : Prop := match q with CEnergyTol _ | CMaxEval _ | CMaxIt _ | CMaxTime _ => True | _ => False end.

(** [b] is [a] with points mapped by phi and differences by lin; update norms are not compared (in the history: rows of norms or best energies), everything else agrees *)
Definition mapped_but_norms (PV : vec -> Prop) (phi lin : vec -> vec) (a b : st R vec) : Prop :=
  state_related (fun v v' => PV v /\ v' = phi v) (fun v v' => PV v /\ v' = lin v) (fun e e' => e' = e) eq (fun _ _ => True) a b.
Definition mem_mapped_but_norms (PV : vec -> Prop) (phi lin : vec -> vec) (a b : mst R vec) : Prop :=
  mapped_but_norms PV phi lin (m_s a) (m_s b) /\ m_y b = map (map phi) (m_y a) /\ m_v b = map (map lin) (m_v a) /\ m_ev b = map (map phi) (m_ev a).
