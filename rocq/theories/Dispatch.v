(** * Selection of components by name

    A component is given by the user as None, a string, a dictionary, a callable or some other
    object.  Building an instance is recorded as the class with its keyword arguments; that a
    constructor may reject keyword arguments is not modelled. *)
From Coq Require Import String List Bool.
From Verif Require Import Np.
Import ListNotations.
Open Scope string_scope.
Open Scope list_scope.

Section Dispatch.
  Context {U : Type}. (* user objects *)

  (** A dictionary: the value of 'name' (if there is this key) and the other items.  Names
      that are not strings are not modelled. *)
  Record dict : Type := mkdict { d_name : option string; d_items : list (string * U) }.

  Inductive arg : Type :=
  | ANone
  | AStr (s : string)
  | ADict (d : dict)
  | ACall (u : U)
  | AOther (u : U).

  (** An instance of class [c] with keyword arguments, or the object the user gave. *)
  Inductive built (C : Type) : Type :=
  | Built (c : C) (kw : list (string * U))
  | Given (u : option U).
  Arguments Built {C}. Arguments Given {C}.

  (** [d[s]] for a dictionary of classes *)
  Fixpoint lookup {C} (t : list (string * C)) (s : string) : option C :=
    match t with
    | [] => None
    | (k, c) :: t' => if String.eqb k s then Some c else lookup t' s
    end.
  Definition getitem {C} (t : list (string * C)) (s : string) : res C :=
    match lookup t s with Some c => Ok c | None => Err KeyError end.

  Inductive noise_cls := Isotropic | Anisotropic | Covariance | Constant.

  (** get_noise, noise.py:9-19 *)
  Definition get_noise (s : string) : res noise_cls :=
    if String.eqb s "isotropic" then Ok Isotropic
    else if String.eqb s "anisotropic" then Ok Anisotropic
    else if String.eqb s "covariance" || String.eqb s "sampling" then Ok Covariance
    else if String.eqb s "constant" then Ok Constant
    else Err NotImplemented.

  (** CBXDynamic.set_noise, pdyn.py:853-876 (norm and sampler of the dynamic left out) *)
  Definition set_noise (a : arg) : res (built noise_cls) :=
    match a with
    | AStr s => c <- get_noise s ;; Ok (Built c [])
    | ACall u => Ok (Given (Some u))
    | _ => Err ValueError
    end.

  Inductive corr_cls := NoCorrection | HeaviSide | HeaviSideReg.

  (** get_correction, correction.py:5-14 *)
  Definition get_correction (s : string) : res corr_cls :=
    if String.eqb s "no_correction" then Ok NoCorrection
    else if String.eqb s "heavi_side" then Ok HeaviSide
    else if String.eqb s "heavi_side_reg" then Ok HeaviSideReg
    else Err ValueError.

  (** CBXDynamic.set_correction, pdyn.py:817-836 (eps left out) *)
  Definition set_correction (a : arg) : res (built corr_cls) :=
    match a with
    | AStr s => c <- get_correction s ;; Ok (Built c [])
    | ACall u => Ok (Given (Some u))
    | _ => Err ValueError
    end.

  Inductive term_cls := EnergyTol | DiffTol | MaxEval | MaxIt | MaxTime | EnergyStagnation.

  (** term_dict, termination.py:4, 19-23, 37-41, 57-61, 79-83, 97-101, 130-134 *)
  Definition fromkeys {C} (l : list string) (c : C) : list (string * C) := map (fun s => (s, c)) l.
  Definition term_dict : list (string * term_cls) :=
    fromkeys ["energy-tol"; "energy tol"; "energy_tol"] EnergyTol ++
    fromkeys ["diff-tol"; "diff tol"; "diff_tol"] DiffTol ++
    fromkeys ["max-eval"; "max eval"; "max_eval"] MaxEval ++
    fromkeys ["max-it"; "max it"; "max_it"] MaxIt ++
    fromkeys ["max-time"; "max time"; "max_time"] MaxTime ++
    fromkeys ["energy-stagnation"; "energy stagnation"; "energy_stagnation"] EnergyStagnation.

  (** select_term, termination.py:136-149; everything which is neither a string nor a
      dictionary is taken as it is. *)
  Definition select_term (a : arg) : res (built term_cls) :=
    match a with
    | AStr s => c <- getitem term_dict s ;; Ok (Built c [])
    | ADict d =>
        match d_name d with
        | Some s => c <- getitem term_dict s ;; Ok (Built c (d_items d))
        | None => Err ValueError
        end
    | ACall u | AOther u => Ok (Given (Some u))
    | ANone => Ok (Given None)
    end.

  Inductive const_cls := PlaneC | SphereC | QuadricC.
  Definition const_dict : list (string * const_cls) :=
    [("plane", PlaneC); ("sphere", SphereC); ("quadric", QuadricC)].

  (** get_constraints, constraints.py:185-197; [None] as argument is the empty list, [None]
      entries are skipped, the others must be dictionaries. *)
  Fixpoint get_constraints (l : list (option dict)) : res (list (built const_cls)) :=
    match l with
    | [] => Ok []
    | None :: l' => get_constraints l'
    | Some d :: l' =>
        s <- (match d_name d with Some s => Ok s | None => Err KeyError end) ;;
        c <- getitem const_dict s ;;
        r <- get_constraints l' ;;
        Ok (Built c (d_items d) :: r)
    end.

  Inductive mirror_cls := ElasticNet | L2 | ProjectionBall | ProjectionHyperplane | ProjectionSphere | ProjectionSquare
    | LogBarrierBox | NonsmoothBarrier | WeightedL2 | Entropy | EntropySimplex.
  Definition mirror_dict : list (string * mirror_cls) :=
    [("ElasticNet", ElasticNet); ("None", L2); ("L2", L2); ("ProjectionBall", ProjectionBall);
     ("ProjectionHyperplane", ProjectionHyperplane); ("ProjectionSphere", ProjectionSphere);
     ("ProjectionSquare", ProjectionSquare); ("LogBarrierBox", LogBarrierBox);
     ("NonsmoothBarrier", NonsmoothBarrier); ("weighted_L2", WeightedL2); ("Entropy", Entropy);
     ("EntropySimplex", EntropySimplex)].

  (** get_mirror_map_by_name, mirrorcbo.py:254-259 *)
  Definition get_mirror_map_by_name (s : string) (kw : list (string * U)) : res (built mirror_cls) :=
    match lookup mirror_dict s with Some c => Ok (Built c kw) | None => Err ValueError end.

  (** get_mirror_map, mirrorcbo.py:261-273; [str(None)] is "None". *)
  Definition get_mirror_map (a : arg) : res (built mirror_cls) :=
    match a with
    | ADict d => match d_name d with Some s => get_mirror_map_by_name s (d_items d) | None => Err KeyError end
    | AStr s => get_mirror_map_by_name s []
    | ANone => get_mirror_map_by_name "None" []
    | ACall u | AOther u => Ok (Given (Some u))
    end.

  Inductive sdf_cls := SphereD | PlaneD | StiefelD.
  Definition sdf_dict : list (string * sdf_cls) := [("sphere", SphereD); ("plane", PlaneD); ("Stiefel", StiefelD)].

  (** get_sdf, hypersurfacecbo.py:70-74 (dictionaries and None) *)
  Definition get_sdf (a : option dict) : res (built sdf_cls) :=
    match a with
    | None => Ok (Built SphereD [])
    | Some d =>
        match d_name d with
        | Some s => c <- getitem sdf_dict s ;; Ok (Built c (d_items d))
        | None => Err KeyError
        end
    end.

  Inductive reg_cls := RegL0 | RegL1 | RegPlane | RegSphere | RegQuadric.
  Definition reg_func_dict : list (string * reg_cls) :=
    [("L0", RegL0); ("L1", RegL1); ("Plane", RegPlane); ("Sphere", RegSphere); ("Quadric", RegQuadric)].

  (** select_reg_func, regularizers.py:50-64 *)
  Definition select_reg_func (a : arg) : res (built reg_cls) :=
    match a with
    | ADict d =>
        match d_name d with
        | Some s => c <- getitem reg_func_dict s ;; Ok (Built c (d_items d))
        | None => Err KeyError
        end
    | AStr s => c <- getitem reg_func_dict s ;; Ok (Built c [])
    | ANone => Ok (Given None)
    | ACall u | AOther u => Ok (Given (Some u))
    end.
End Dispatch.
Arguments dict U : clear implicits.
Arguments arg U : clear implicits.
Arguments built U C : clear implicits.
Arguments Built {U C}.
Arguments Given {U C}.
