(** * A case for the random inputs of the loop of CBOMemory *)
From Coq Require Import String List Arith Bool ZArith.
From Verif Require Import Scalar Np State Pdyn Exec ExZ Memory MemSpec ExMem.
Import ListNotations.
Open Scope nat_scope.

Definition mc3 : cfg Z Z := zcfg (gap 5) NoCorr 2 true false [CMaxIt (Some 3)].
Lemma mem_enters : forall k, exists ms s1 ms2, mem_init mc3 [[0%Z; 3%Z]; [4%Z; 1%Z]] false (Fin 1%Z) (Fin 1%Z) (Fin 1%Z) (Fin 1%Z) (fun _ => [0; 1]) None [] None = Ok ms /\
  terminate mc3 (m_s ms) = Ok (false, s1) /\ mem_step k mc3 mpar0 (zorc 1 [0; 1]) (fun _ _ => 2%Z) (mkmst s1 (m_y ms) (m_v ms) (m_ev ms)) = Ok ms2.
Proof. intros []; eexists _, _, _; (split; [vm_compute; reflexivity|]); (split; vm_compute; reflexivity). Qed.
