(** * The surfaces of HyperSurfaceCBO (cbx/dynamics/hypersurfacecbo.py:6-64, 142-158)

    On one particle; NumPy applies the same operations along the last axis.  The parameters are finite numbers. *)
From Coq Require Import List Arith Reals.
From Verif Require Import Scalar Np Consensus RVec Cbo MatSqrt Variant.
Import ListNotations.
Open Scope R_scope.

Inductive sdf : Type :=
| SphereD                              (** sphereDistance, 19-28 *)
| PlaneD (a : list R) (b : R)          (** planeDistance, 52-64; a has an entry per coordinate *)
(** StiefelDistance, 30-50.  numpy.linalg.svd(full_matrices=False) is external: [svd y] is (U, Vh), None if it
    raises LinAlgError *)
| StiefelD (n k : nat) (svd : vec -> option (mat * mat)).

Definition sdf_grad (s : sdf) (v : vec) : vec :=
  match s with
  | SphereD => map (fun a => fdiv a (fnorm v)) v
  | PlaneD a b => map (fun ai => Fin (ai / vnorm a)) a
  | StiefelD _ _ _ => v
  end.

Definition sdf_lap (s : sdf) (v : vec) : fl R :=
  match s with
  | SphereD => fdiv (Fin (INR (length v) - 1)) (fnorm v)
  | PlaneD _ _ => Fin 0
  | StiefelD n k _ => Fin ((2 * INR n - INR k - 1) / 2)
  end.

(** the k columns of the flattened matrix v *)
Definition ventry (k : nat) (v : vec) (i j : nat) : fl R := nth (i * k + j) v NaN.
Definition flat (n k : nat) (A : nat -> nat -> fl R) : vec := map (fun i => A (i / k)%nat (i mod k)%nat) (seq 0 (n * k)).
Definition fsum_to (n : nat) (f : nat -> fl R) : fl R := fsum (map f (seq 0 n)).

(** [proj]; a LinAlgError is represented by a particle of NaNs *)
Definition sdf_proj (s : sdf) (x : vec) : vec :=
  match s with
  | SphereD => map (fun a => fdiv a (fnorm x)) x
  | PlaneD a b =>
      let w := map Fin a in
      let t := fdiv (fsub (fsum (map2 fmul w x)) (Fin b)) (Fin (vnorm a ^ 2)) in
      map2 fsub x (map (fmul t) w)
  | StiefelD n k svd =>
      match svd x with
      | Some (U, Vh) => map (fun i => Fin (mmul (Nat.min n k) U Vh (i / k)%nat (i mod k)%nat)) (seq 0 (n * k))
      | None => map (fun _ => NaN) x
      end
  end.

(** [proj_tangent_space]: signedDistance 13-15, StiefelDistance 45-49 *)
Definition sdf_tan (s : sdf) (x z : vec) : vec :=
  match s with
  | StiefelD n k _ =>
      let X := ventry k x in let Z := ventry k z in
      let S := fun i j => fadd (fsum_to n (fun l => fmul (Z l i) (X l j))) (fsum_to n (fun l => fmul (X l i) (Z l j))) in
      flat n k (fun i j => fsub (Z i j) (fsum_to k (fun l => fmul (fmul (Fin (/ 2)) (X i l)) (S l j))))
  | _ => let g := sdf_grad s x in
         let t := fsum (map2 fmul g z) in
         map2 fsub z (map (fun gi => fmul gi t) g)
  end.

(** signedDistance.get_proj_matrix, 7-11 *)
Definition sdf_matrix (s : sdf) (v : vec) (i j : nat) : fl R :=
  fsub (Fin (if Nat.eqb i j then 1 else 0)) (fmul (nth j (sdf_grad s v) NaN) (nth i (sdf_grad s v) NaN)).

(** noise_constr_iso (142-151) and noise_constr_aniso (153-159) *)
Definition nc_iso (s : sdf) (dt sigma : fl R) (x drift : vec) : vec :=
  let nd := fnorm drift in
  map (fmul (fmul (fmul (fdiv (fmul dt (fmul sigma sigma)) (Fin 2)) (sdf_lap s x)) (fmul nd nd))) (sdf_grad s x).
Definition nc_aniso (dt sigma : fl R) (x drift : vec) : vec :=
  let nd := fnorm drift in
  let p := fsum (map2 fmul drift x) in
  map2 (fun di xi => fmul (fmul (fdiv (fmul dt (fmul sigma sigma)) (Fin 2))
                             (fsub (fadd (fmul nd nd) (fmul di di)) (fmul (Fin 2) (fmul p p)))) xi) drift x.

(** HyperSurfaceCBO.__init__, 109-120: the correction term goes with the noise model *)
Definition surface_of (s : sdf) (k : noise_model) : @surface R vec :=
  mksurface (sdf_tan s) (sdf_proj s) (match k with NAniso => nc_aniso | _ => nc_iso s end).
