(** * Network parameters as flat vectors (cbx/utils/torch_utils.py) *)
From Coq Require Import String List Arith Bool.
From Verif Require Import Np Dispatch.
Import ListNotations.
Open Scope nat_scope.
Open Scope list_scope.

Section Torch.
  Context {A : Type}.

  (** A tensor: its shape and its entries in row-major order; a module: its named parameters. *)
  Definition tensor : Type := (list nat * list A)%type.
  Definition module : Type := list (string * tensor).
  Definition numel (sh : list nat) : nat := fold_right Nat.mul 1 sh.

  (** torch.func.stack_module_state (external): for each parameter name one tensor with a
      leading axis for the models, here the shape without it and one list per model.  Models
      which differ in names or shapes raise; so does an empty list. *)
  Definition stacked : Type := list (string * (list nat * list (list A))).
  Definition stack_module_state (models : list module) : res stacked :=
    match models with
    | [] => Err RuntimeErr
    | m0 :: _ =>
        mapM (fun e : string * tensor =>
          rows <- mapM (fun m : module =>
                    match lookup m (fst e) with
                    | Some t => if list_eq_dec Nat.eq_dec (fst t) (fst (snd e)) then Ok (snd t) else Err RuntimeErr
                    | None => Err KeyError
                    end) models ;;
          Ok (fst e, (fst (snd e), rows))) m0
    end.

  (** flatten_parameters, torch_utils.py:150-153: one row per model; an empty list of names raises. *)
  Definition flatten_parameters (models : list module) (pnames : list string) : res (list (list A)) :=
    params <- stack_module_state models ;;
    cols <- mapM (fun p => e <- getitem params p ;; Ok (snd e)) pnames ;;
    match cols with
    | [] => Err RuntimeErr
    | _ => Ok (map (fun n => concat (map (fun c => nth n c []) cols)) (seq 0 (length models)))
    end.

  (** An OrderedDict: assignment to an existing key keeps its place. *)
  Fixpoint od_set {B} (p : string) (v : B) (l : list (string * B)) : list (string * B) :=
    match l with
    | [] => [(p, v)]
    | (q, u) :: l' => if String.eqb q p then (q, v) :: l' else (q, u) :: od_set p v l'
    end.

  Definition prop : Type := (list nat * (nat * nat))%type.
  (** [pprop[next(reversed(pprop))][-1]], 0 for the empty dictionary *)
  Definition last_end (l : list (string * prop)) : nat := match rev l with [] => 0 | e :: _ => snd (snd (snd e)) end.

  Fixpoint pp_loop (params : stacked) (pnames : list string) (acc : list (string * prop)) : res (list (string * prop)) :=
    match pnames with
    | [] => Ok acc
    | p :: ps =>
        e <- getitem params p ;;
        let a := last_end acc in
        pp_loop params ps (od_set p (fst e, (a, a + numel (fst e))) acc)
    end.

  (** get_param_properties, torch_utils.py:156-165. *)
  Definition get_param_properties (models : list module) (pnames : option (list string)) : res (list (string * prop)) :=
    params <- stack_module_state models ;;
    pp_loop params (match pnames with Some l => l | None => map fst params end) [].

  (** The dictionary of parameters built by eval_model, torch_utils.py:121-122: [w[a:b].view(shape)] for each entry; view
      raises if the sizes do not match.  The functional call itself is external. *)
  Definition eval_params (w : list A) (pprop : list (string * prop)) : res module :=
    mapM (fun e : string * prop =>
      let '(p, (sh, (a, b))) := e in
      let sl := firstn (b - a) (skipn a w) in
      if length sl =? numel sh then Ok (p, (sh, sl)) else Err RuntimeErr) pprop.
End Torch.
Arguments module A : clear implicits.
Arguments tensor A : clear implicits.
