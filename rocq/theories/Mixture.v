(** * The Gaussian mixture objective Multimodal and the centres of Bimodal and Unimodal (cbx/objectives.py) *)
From Coq Require Import List Arith Bool Reals.
From Verif Require Import Scalar Np Nd RVec MatSqrt Squeeze.
Import ListNotations.
Open Scope R_scope.

(** a frozen scipy.stats.multivariate_normal: mean, log_det_cov and the whitening matrix U with U U^T = cov^-1 *)
Record mvn : Type := mkmvn { mv_mean : list R; mv_logdet : R; mv_U : mat }.
(** [multivariate_normal(mean=m, cov=c)], objectives.py:655; scipy decomposes cov by eigh (external, [eigh]), raises LinAlgError (a ValueError) unless
    it is positive definite and uses U = u * sqrt(1/s), log_det = sum(log s).  Simplifications: cov is a d x d matrix for d the length of the mean,
    eigenvalues are compared with 0 instead of a multiple of the machine precision. *)
Definition mvn_freeze (eigh : nat -> mat -> (nat -> R) * mat) (m : list R) (C : mat) : res mvn :=
  let d := length m in let '(s, u) := eigh d C in
  if forallb (fun k => Rltb 0 (s k)) (seq 0 d) then Ok (mkmvn m (msum d (fun k => ln (s k))) (fun i j => u i j * sqrt (1 / s j))) else Err ValueError.
(** [mn.pdf(x)] in one point, objectives.py:660: exp(-1/2 (d log(2 pi) + log_det + |(x - mean) U|^2)) *)
Definition mvn_pdf (g : mvn) (x : list R) : R :=
  let d := length (mv_mean g) in
  exp (- (1 / 2) * (INR d * ln (2 * PI) + mv_logdet g + msum d (fun j => msum d (fun i => (nth i x 0 - nth i (mv_mean g) 0) * mv_U g i j) ^ 2))).

(** Multimodal.__init__, objectives.py:651-655: [zip] stops at the shorter list *)
Fixpoint mm_init (eigh : nat -> mat -> (nat -> R) * mat) (means : list (list R)) (covs : list mat) : res (list mvn) :=
  match means, covs with
  | m :: means, c :: covs => g <- mvn_freeze eigh m c ;; gs <- mm_init eigh means covs ;; Ok (g :: gs)
  | _, _ => Ok []
  end.
(** ... with the default arguments [np.zeros((2,))] and [np.eye(2)] *)
Definition mm_new (eigh : nat -> mat -> (nat -> R) * mat) (means : option (list (list R))) (covs : option (list mat)) : res (list mvn) :=
  mm_init eigh (match means with None => [[0; 0]] | Some l => l end) (match covs with None => [fun i j => if (i =? j)%nat then 1 else 0] | Some l => l end).
(** Multimodal.apply in one point, objectives.py:657-661; [-np.log(0)] is inf.  Real arithmetic: densities do not underflow. *)
Definition mm_apply (gs : list mvn) (x : list R) : fl R :=
  let r := fold_left (fun acc g => acc + mvn_pdf g x) gs 0 in
  if Rltb 0 r then Fin (- ln r) else PInf.
(** Multimodal.apply on an array: scipy's pdf removes all axes of length one from its result; without components the result is the number inf *)
Definition mm_call (gs : list mvn) (x : nd R) : res (nd (fl R)) := match gs with [] => Ok (scalar PInf) | _ => squeezed (mm_apply gs) x end.

(** the argument a of Bimodal and Unimodal, objectives.py:628-629, 642: [a if a else default] *)
Inductive centre_arg : Type := CNone | CList (l : list R) | CArray (l : list R).
(** [bool(a)]: an array with one entry has the truth value of the entry, with several entries it raises *)
Definition truth (a : centre_arg) : res bool :=
  match a with
  | CNone => Ok false
  | CList l => Ok (match l with [] => false | _ => true end)
  | CArray [] => Ok false
  | CArray [v] => Ok (Rltb v 0 || Rltb 0 v)
  | CArray _ => Err ValueError
  end.
Definition centre (a : centre_arg) (default : list R) : res (list R) :=
  b <- truth a ;; Ok (if b then match a with CNone => [] | CList l | CArray l => l end else default).
