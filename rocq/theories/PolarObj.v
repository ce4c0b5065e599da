(** * The kernel attributes of a PolarCBO object (cbx/dynamics/polarcbo.py) *)
From Coq Require Import List String Bool Reals.
From Verif Require Import Scalar Np.
Import ListNotations.
Open Scope string_scope.

(** A kernel object: one of the shipped classes with its own kappa (polarcbo.py:11-12, 59-60), or an object of the user
    (opaque, a number). *)
Inductive kclass : Type := Gaussian | Laplace | Constant | InverseQuadratic | Taz.
Inductive kobj : Type := KShipped (c : kclass) (kappa : fl R) | KUser (id : nat).
(** the argument of set_kernel *)
Inductive karg : Type := AName (s : string) | AObject (k : kobj).

Record pobj : Type := { po_kappa : fl R; po_kernel : kobj; po_mode : string }.

(** kernel_dict, polarcbo.py:198-202 *)
Definition kernel_dict : list (string * kclass) :=
  [("Gaussian", Gaussian); ("Laplace", Laplace); ("Constant", Constant); ("InverseQuadratic", InverseQuadratic); ("Taz", Taz)].
Fixpoint lookup (s : string) (l : list (string * kclass)) : option kclass :=
  match l with [] => None | (n, c) :: r => if String.eqb s n then Some c else lookup s r end.

(** set_kernel, polarcbo.py:222-229: the kernel to store *)
Definition kernel_for (kappa : fl R) (a : karg) : res kobj :=
  match a with
  | AName s => match lookup s kernel_dict with Some c => Ok (KShipped c kappa) | None => Err ValueError end
  | AObject k => Ok k
  end.
Definition set_kernel (a : karg) (o : pobj) : res pobj :=
  k <- kernel_for (po_kappa o) a ;; Ok {| po_kappa := po_kappa o; po_kernel := k; po_mode := po_mode o |}.

(** PolarCBO.__init__, polarcbo.py:194-196 *)
Definition construct (a : karg) (kappa : fl R) (mode : string) : res pobj :=
  k <- kernel_for kappa a ;; Ok {| po_kappa := kappa; po_kernel := k; po_mode := mode |}.

(** kernel_factor, polarcbo.py:231-237, for a run with parameter [alpha] *)
Definition kernel_factor_of (o : pobj) (alpha : fl R) : res (fl R) :=
  if String.eqb (po_mode o) "const" then Ok (Fin 1%R)
  else if String.eqb (po_mode o) "alpha" then Ok alpha
  else Err NotImplemented.

(** What a program may do with these attributes: [dyn.kappa = v], [dyn.set_kernel(a)] (the caller may catch the exception),
    [dyn.kernel.kappa = v], [dyn.kernel_factor_mode = m] *)
Inductive pop : Type := PKappa (v : fl R) | PKernel (a : karg) | PKernelKappa (v : fl R) | PMode (m : string).
Definition papply (o : pobj) (p : pop) : pobj :=
  match p with
  | PKappa v => {| po_kappa := v; po_kernel := po_kernel o; po_mode := po_mode o |}
  | PKernel a => match set_kernel a o with Ok o' => o' | Err _ => o end
  | PKernelKappa v =>
      {| po_kappa := po_kappa o;
         po_kernel := match po_kernel o with KShipped c _ => KShipped c v | k => k end; po_mode := po_mode o |}
  | PMode m => {| po_kappa := po_kappa o; po_kernel := po_kernel o; po_mode := m |}
  end.
Definition prun (o : pobj) (l : list pop) : pobj := fold_left papply l o.
