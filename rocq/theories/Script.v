(** * Computable executions, used for the examples and counterexamples *)
From Coq Require Import String List Arith Bool Permutation Lia.
From Verif Require Import Scalar Np State Pdyn Exec.
Import ListNotations.
Open Scope nat_scope.
Open Scope list_scope.

Section Script.
  Context {K V : Type} {O : KOps K}.
  Notation F := (fl K).
  Notation st := (st K V).
  Notation cfg := (cfg K V).
  Notation orc := (orc V).

  (** one call by the user or by optimize *)
  Inductive action : Type :=
  | AStep (o : orc)
  | ATerm
  | AParams (alpha sigma lamda dt : F)
  | AReset.

  Definition perm_b (N : nat) (p : list nat) : bool :=
    (length p =? N) && forallb (fun i => existsb (Nat.eqb i) p) (seq 0 N).

  Definition act (c : cfg) (a : action) (p : st * list (nat * V)) : option (st * list (nat * V)) :=
    let '(s, log) := p in
    match a with
    | AStep o => if forallb (fun m => perm_b (s_N s) (o_perm o m)) (seq 0 (s_M s)) then
                   match step c o s with Ok s' => Some (s', log ++ evaluated s s') | Err _ => None end
                 else None
    | ATerm => match terminate c s with Ok (_, s') => Some (s', log) | Err _ => None end
    | AParams al sg la d => Some (set_alpha (repeat [al] (s_M s)) (set_sigma sg (set_lamda la (set_dt d s))), log)
    | AReset => Some (reset s, log)
    end.

  Fixpoint acts (c : cfg) (l : list action) (p : st * list (nat * V)) : option (st * list (nat * V)) :=
    match l with
    | [] => Some p
    | a :: l' => match act c a p with Some p' => acts c l' p' | None => None end
    end.

  Definition is_array_b {A} (M N : nat) (X : arr A) : bool :=
    (length X =? M) && forallb (fun r => length r =? N) X.

  (** construct and run *)
  Definition script (c : cfg) (x0 : arr V) (al sg la dt : F) (perm0 : list nat)
             (names : option (list string)) (save : option nat) (l : list action) : option (st * list (nat * V)) :=
    if is_array_b (length x0) (shape1 x0) x0 && (1 <=? shape1 x0) && (1 <=? c_bsize c) && (c_bsize c <=? shape1 x0)
       && perm_b (shape1 x0) perm0 && negb (match save with Some 0 => true | _ => false end) then
      match init c x0 false al sg la dt (fun _ => perm0) names [] save with
      | Ok s => acts c l (s, [])
      | Err _ => None
      end
    else None.

  Lemma perm_b_ok : forall N p, perm_b N p = true -> Permutation p (seq 0 N).
  Proof.
    intros N p H. apply andb_prop in H. destruct H as [H1 H2]. apply Nat.eqb_eq in H1.
    symmetry. apply NoDup_Permutation_bis.
    - apply seq_NoDup.
    - rewrite seq_length. lia.
    - intros i Hi. rewrite forallb_forall in H2. apply H2 in Hi. apply existsb_exists in Hi.
      destruct Hi as (j & Hj & E). apply Nat.eqb_eq in E. subst. auto.
  Qed.

  Lemma acts_exec : forall c l s log s' log', exec c s log -> acts c l (s, log) = Some (s', log') -> exec c s' log'.
  Proof.
    intros c l. induction l as [|a l IH]; intros s log s' log' E H.
    - inversion H; subst; auto.
    - cbn [acts] in H. destruct a; cbn [act] in H.
      + destruct (forallb _ _) eqn:P; [|discriminate].
        destruct (step c o s) as [s1|] eqn:S1; [|discriminate].
        eapply IH; [|exact H]. eapply ex_step; eauto.
        intros m Hm. rewrite forallb_forall in P. apply perm_b_ok. apply P. apply in_seq. lia.
      + destruct (terminate c s) as [[b s1]|] eqn:S1; [|discriminate]. eapply IH; [|exact H]. eapply ex_term; eauto.
      + eapply IH; [|exact H]. eapply ex_params; eauto. unfold params_changed. exists (repeat [alpha] (s_M s)). do 3 eexists. split; [|reflexivity].
        split; [apply repeat_length|]. apply Forall_forall. intros r Hr. apply repeat_spec in Hr. subst; auto.
      + eapply IH; [|exact H]. apply ex_reset. auto.
  Qed.

  Lemma script_exec : forall c x0 al sg la dt perm0 names save l s log,
    script c x0 al sg la dt perm0 names save l = Some (s, log) -> exec c s log.
  Proof.
    intros c x0 al sg la dt perm0 names save l s log H. unfold script in H.
    match type of H with (if ?b then _ else _) = _ => destruct b eqn:B; [|discriminate] end.
    do 5 (apply andb_prop in B; destruct B as [B ?]).
    destruct (init _ _ _ _ _ _ _ _ _ _ _) as [s0|] eqn:I; [|discriminate].
    eapply acts_exec; [|exact H]. apply ex_init.
    unfold is_array_b in B. apply andb_prop in B. destruct B as [B1 B2].
    exists x0, false, al, sg, la, dt, (fun _ => perm0), names, [], save.
    split; [split; auto|].
    { apply Forall_forall. intros r Hr. rewrite forallb_forall in B2. apply Nat.eqb_eq. auto. }
    apply Nat.leb_le in H3, H2, H4. repeat split; auto.
    - intros. apply perm_b_ok; auto.
    - intros ->. discriminate.
  Qed.
End Script.
Arguments action : clear implicits.
