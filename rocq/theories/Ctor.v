(** * Constructors: how keyword arguments travel through the class hierarchy, and which array functions a dynamic and
    its torch version use *)
From Coq Require Import String List Bool.
From Verif Require Import Np.
Import ListNotations.
Open Scope string_scope.
Open Scope list_scope.

Section Ctor.
  Context {U : Type}. (* objects given by the user *)

  (** A value: None, an object of the library (written as in the source), or an object of the user *)
  Inductive val : Type := PyNone | Lib (source : string) | User (u : U).
  (** [**kwargs]; the keys of a dictionary are distinct, but nothing below depends on it *)
  Definition kwargs : Type := list (string * val).
  Definition keys (kw : kwargs) : list string := map fst kw.
  Definition mem (k : string) (l : list string) : bool := existsb (String.eqb k) l.
  Fixpoint assoc (k : string) (kw : kwargs) : option val :=
    match kw with [] => None | (k', v) :: r => if String.eqb k k' then Some v else assoc k r end.
  Definition or_default (v w : val) : val := match v with PyNone => w | _ => v end.  (** [v if v is not None else w] *)

  (** the classes with an [__init__]; TorchDyn stands for the class that to_torch_dynamic builds on top *)
  Inductive cname : Type :=
  | ParticleDynamic | CBXDynamic | CBO | CBOMemory | PSO | CBS | PolarCBO | MirrorCBO | AdamCBO
  | DriftConstrainedCBO | HyperSurfaceCBO | RegCombinationCBO | TorchDyn.

  (** An [__init__(self, f, p1=d1, ..., **kwargs)]: its keyword parameters with their defaults, the keywords it names
      itself in [super().__init__(f, name=..., **kwargs)], and whether it has [**kwargs].  The objective is passed on
      unchanged and left out. *)
  Record init_sig : Type := mksig {
    own : list (string * val);
    named : list (string * ((string -> val) -> val));
    more : bool
  }.

  Definition sig_of (c : cname) : init_sig :=
    match c with
    | ParticleDynamic => (* pdyn.py:126-142 *)
        mksig [("f_dim", Lib "'1D'"); ("check_f_dims", Lib "True"); ("x", PyNone); ("M", Lib "1"); ("N", Lib "20"); ("d", PyNone);
               ("max_it", Lib "1000"); ("term_criteria", PyNone); ("track_args", PyNone); ("verbosity", Lib "1"); ("copy", PyNone);
               ("norm", PyNone); ("sampler", PyNone); ("post_process", PyNone); ("seed", PyNone)] [] false
    | CBXDynamic => (* pdyn.py:629-643 *)
        mksig [("noise", Lib "'isotropic'"); ("batch_args", PyNone); ("dt", Lib "0.01"); ("alpha", Lib "1.0"); ("sigma", Lib "5.1");
               ("lamda", Lib "1.0"); ("correction", Lib "'no_correction'"); ("correction_eps", Lib "1e-3"); ("compute_consensus", PyNone);
               ("save_consensus_eval_points", Lib "False")] [] true
    | CBO => mksig [] [] true (* cbo.py:37-38 *)
    | CBOMemory => mksig [("lamda_memory", Lib "0.4"); ("sigma_memory", PyNone)] [] true (* cbo_memory.py:48-54 *)
    | PSO => (* pso.py:54-62 *)
        mksig [("m", Lib "0.001"); ("gamma", PyNone); ("lamda_memory", Lib "0.4"); ("sigma_memory", PyNone)] [] true
    | CBS => (* cbs.py:6-11 *)
        mksig [("mode", Lib "'sampling'"); ("noise", Lib "'covariance'"); ("M", Lib "1"); ("track_args", PyNone)]
              [("track_args", fun a => or_default (a "track_args") (Lib "{'names':[]}")); ("noise", fun a => a "noise"); ("M", fun a => a "M")] true
    | PolarCBO => (* polarcbo.py:186-192 *)
        mksig [("kernel", Lib "'Gaussian'"); ("kappa", Lib "1.0"); ("kernel_factor_mode", Lib "'alpha'"); ("compute_consensus", PyNone)]
              [("compute_consensus", fun a => or_default (a "compute_consensus") (Lib "compute_polar_consensus"))] true
    | MirrorCBO => mksig [("mirrormap", PyNone)] [] true (* mirrorcbo.py:300-301 *)
    | AdamCBO => mksig [("betas", Lib "(0.9, 0.99)"); ("eps", Lib "1e-8")] [] true (* adamcbo.py:26-33 *)
    | DriftConstrainedCBO => (* driftconstrainedcbo.py:36-42 *)
        mksig [("constraints", PyNone); ("eps", Lib "0.01"); ("eps_indep", Lib "0.001"); ("sigma_indep", Lib "0.")] [] true
    | HyperSurfaceCBO => (* hypersurfacecbo.py:110-116 *)
        mksig [("noise", Lib "'isotropic'"); ("sdf", PyNone)]
              [("compute_consensus", fun _ => Lib "compute_consensus_rescale"); ("noise", fun a => a "noise")] true
    | RegCombinationCBO => mksig [("constraints", PyNone); ("eps", Lib "0.01"); ("nu", Lib "1")] [] true (* regcombinationcbo.py:18-19 *)
    | TorchDyn => mksig [("device", Lib "'cpu'")] [] true (* torch_utils.py:103-105 *)
    end.

  (** the classes from the most derived one to ParticleDynamic *)
  Definition mro (c : cname) : list cname :=
    match c with
    | ParticleDynamic => [ParticleDynamic]
    | CBXDynamic => [CBXDynamic; ParticleDynamic]
    | CBO => [CBO; CBXDynamic; ParticleDynamic]
    | PSO => [PSO; CBXDynamic; ParticleDynamic]
    | TorchDyn => [TorchDyn]
    | _ => [c; CBO; CBXDynamic; ParticleDynamic]
    end.
  (** to_torch_dynamic, torch_utils.py:102-117 *)
  Definition mro_torch (c : cname) : list cname := TorchDyn :: mro c.

  (** The call of an [__init__] with keyword arguments: the values of the parameters of every class it reaches.  A keyword
      that is both named and in [**kwargs] raises TypeError (multiple values), so does one that no class knows. *)
  Fixpoint call (l : list cname) (kw : kwargs) : res (list (cname * (string -> val))) :=
    match l with
    | [] => Ok []
    | c :: l' =>
        let s := sig_of c in
        let a p := match assoc p kw with
                   | Some v => v
                   | None => match assoc p (own s) with Some v => v | None => PyNone end
                   end in
        let rest := filter (fun kv => negb (mem (fst kv) (map fst (own s)))) kw in
        if negb (more s) then match rest with [] => Ok [(c, a)] | _ => Err TypeError end
        else if existsb (fun kv => mem (fst kv) (map fst (named s))) rest then Err TypeError
        else r <- call l' (map (fun n => (fst n, snd n a)) (named s) ++ rest) ;; Ok ((c, a) :: r)
    end.

  Fixpoint at_class (c : cname) (r : list (cname * (string -> val))) : string -> val :=
    match r with
    | [] => fun _ => PyNone
    | (c', a) :: r' =>
        match c, c' with
        | ParticleDynamic, ParticleDynamic | CBXDynamic, CBXDynamic | TorchDyn, TorchDyn => a
        | _, _ => at_class c r'
        end
    end.

  (** ** The hooks *)

  (** [def] of the hook in the class body: pdyn.py:170, 173, 210, 666; regcombinationcbo.py:42; torch_utils.py:107-116 *)
  Inductive hook : Type := SetPostProcess | SetArrayBackend | InitParticles | InitConsensus.
  Definition defines (h : hook) (c : cname) : bool :=
    match h, c with
    | _, TorchDyn => true
    | SetPostProcess, (ParticleDynamic | RegCombinationCBO) => true
    | SetArrayBackend, ParticleDynamic | InitParticles, ParticleDynamic => true
    | InitConsensus, CBXDynamic => true
    | _, _ => false
    end.
  (** attribute lookup: the first class that has it *)
  Definition resolve (h : hook) (l : list cname) : option cname := find (defines h) l.

  (** The sampler: one of the user, one with its own generator made from the seed, or torch's global one *)
  Inductive sampler : Type := OwnRng (seed : val) | TorchGlobal (device : val) | Given (v : val).
  Record outcome : Type := mkout {
    o_copy : val; o_norm : val; o_sampler : sampler; o_post : val; o_cons : val;
    o_x : option val  (** the device of randomly drawn initial particles; None for NumPy arrays *)
  }.

  (** what the constructor stores: set_post_process pdyn.py:170-171, regcombinationcbo.py:42-45, torch_utils.py:84-85;
      set_array_backend_funs pdyn.py:173-177, torch_utils.py:87-90; init_consensus pdyn.py:666-668, torch_utils.py:95-97;
      init_particles pdyn.py:210-211, torch_utils.py:92-93 (no device is given there) *)
  Definition build (l : list cname) (kw : kwargs) : res outcome :=
    r <- call l kw ;;
    let p := at_class ParticleDynamic r in
    let x := at_class CBXDynamic r in
    let dev := at_class TorchDyn r "device" in
    Ok (mkout
      (match resolve SetArrayBackend l with Some TorchDyn => or_default (p "copy") (Lib "torch.clone") | _ => or_default (p "copy") (Lib "np.copy") end)
      (match resolve SetArrayBackend l with Some TorchDyn => or_default (p "norm") (Lib "norm_torch") | _ => or_default (p "norm") (Lib "np.linalg.norm") end)
      (match p "sampler" with
       | PyNone => match resolve SetArrayBackend l with Some TorchDyn => TorchGlobal dev | _ => OwnRng (p "seed") end
       | v => Given v
       end)
      (or_default (p "post_process")
         (match resolve SetPostProcess l with
          | Some TorchDyn => Lib "post_process_default_torch()"
          | Some RegCombinationCBO => Lib "post_process_default(copy_nan_to_num=True)"
          | _ => Lib "post_process_default()"
          end))
      (match resolve InitConsensus l with
       | Some TorchDyn => or_default (x "compute_consensus") (Lib "compute_consensus_torch")
       | Some _ => or_default (x "compute_consensus") (Lib "compute_consensus_default()")
       | None => PyNone
       end)
      (match resolve InitParticles l with Some TorchDyn => Some (Lib "'cpu'") | _ => None end)).
End Ctor.
Arguments val : clear implicits.
Arguments kwargs : clear implicits.
Arguments init_sig : clear implicits.
Arguments sampler : clear implicits.
Arguments outcome : clear implicits.
