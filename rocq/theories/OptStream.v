(** * The loops of optimize take their random inputs one after the other *)
From Coq Require Import List Arith Bool Reals.
From Verif Require Import Scalar Np State Pdyn Memory Optimize.
Import ListNotations.
Open Scope nat_scope.

Definition rest {A} (os : nat -> A) : nat -> A := fun j => os (S j).

Section OptStream.
  Context {K V : Type} {O : KOps K}.

  Lemma loop_shift : forall (c : cfg K V) stepf sched os fuel i s, optimize_loop c stepf sched os fuel (S i) s = optimize_loop c stepf sched (rest os) fuel i s.
  Proof.
    intros c stepf sched os fuel. induction fuel; intros i s; cbn [optimize_loop]; destruct (terminate c s) as [[[] s1]|]; try reflexivity.
    change (rest os i) with (os (S i)). destruct (s2 <- stepf (os (S i)) s1 ;; sched s2) as [s2|]; [|reflexivity]. apply IHfuel.
  Qed.
  Lemma loop_draws : forall (c : cfg K V) stepf sched os fuel s s1 s2 s3, terminate c s = Ok (false, s1) -> stepf (os 0) s1 = Ok s2 -> sched s2 = Ok s3 ->
    optimize_loop c stepf sched os (S fuel) 0 s = optimize_loop c stepf sched (rest os) fuel 0 s3.
  Proof. intros c stepf sched os fuel s s1 s2 s3 E1 E2 E3. cbn [optimize_loop]. rewrite E1, E2. cbn [bind]. rewrite E3. apply loop_shift. Qed.

  Lemma mem_shift : forall k (c : cfg K V) p os zs fuel i ms, mem_optimize k c p os zs fuel (S i) ms = mem_optimize k c p (rest os) (rest zs) fuel i ms.
  Proof.
    intros k c p os zs fuel. induction fuel; intros i ms; cbn [mem_optimize]; destruct (terminate c (m_s ms)) as [[[] s1]|]; try reflexivity.
    change (rest os i) with (os (S i)). change (rest zs i) with (zs (S i)). destruct (mem_step k c p (os (S i)) (zs (S i)) _) as [s2|]; [|reflexivity]. apply IHfuel.
  Qed.
  Lemma mem_draws : forall k (c : cfg K V) p os zs fuel ms s1 ms2, terminate c (m_s ms) = Ok (false, s1) ->
    mem_step k c p (os 0) (zs 0) (mkmst s1 (m_y ms) (m_v ms) (m_ev ms)) = Ok ms2 ->
    mem_optimize k c p os zs (S fuel) 0 ms = mem_optimize k c p (rest os) (rest zs) fuel 0 ms2.
  Proof. intros k c p os zs fuel ms s1 ms2 E1 E2. cbn [mem_optimize]. rewrite E1, E2. apply mem_shift. Qed.
End OptStream.
