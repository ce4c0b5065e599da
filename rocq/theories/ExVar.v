(** * Computable executions of the variants, used for the examples *)
From Coq Require Import String List Arith Bool ZArith Permutation Lia.
From Verif Require Import Scalar Np State Pdyn Exec Script ExZ Variant VarSpec.
Import ListNotations.
Open Scope nat_scope.
Open Scope list_scope.

Section VScript.
  Context {K V : Type} {O : KOps K} {E : Type}.
  Variables (inner : cfg K V -> orc V -> st K V -> E -> res (st K V * E)) (attr : st K V -> E) (c : cfg K V).

  Definition vact (a : action K V) (p : nat * (st K V * E) * list (nat * V)) : option (nat * (st K V * E) * list (nat * V)) :=
    let '(n, (s, e), log) := p in
    match a with
    | AStep o => if forallb (fun m => perm_b (s_N s) (o_perm o m)) (seq 0 (s_M s)) && negb (length (s_active s) =? 0) then
                   match vstep inner c o (s, e) with Ok (s', e') => Some (S n, (s', e'), log ++ evaluated s s') | Err _ => None end
                 else None
    | ATerm => match terminate c s with Ok (_, s') => Some (n, (s', e), log) | Err _ => None end
    | AParams al sg la d => Some (n, (set_alpha (repeat [al] (s_M s)) (set_sigma sg (set_lamda la (set_dt d s))), e), log)
    | AReset => Some (n, (reset s, e), log)
    end.
  Fixpoint vacts (l : list (action K V)) (p : nat * (st K V * E) * list (nat * V)) : option (nat * (st K V * E) * list (nat * V)) :=
    match l with [] => Some p | a :: l' => match vact a p with Some p' => vacts l' p' | None => None end end.
  Definition vscript (x0 : arr V) (al sg la dt : fl K) (perm0 : list nat) (l : list (action K V)) : option (nat * (st K V * E) * list (nat * V)) :=
    if is_array_b (length x0) (shape1 x0) x0 && (1 <=? shape1 x0) && (1 <=? c_bsize c) && (c_bsize c <=? shape1 x0) && perm_b (shape1 x0) perm0 then
      match init c x0 false al sg la dt (fun _ => perm0) None [] None with
      | Ok s => vacts l (0, (s, attr s), [])
      | Err _ => None
      end
    else None.

  Lemma vacts_exec : forall l n p log n' p' log', vexec inner attr c n p log -> vacts l (n, p, log) = Some (n', p', log') -> vexec inner attr c n' p' log'.
  Proof.
    induction l as [|a l IH]; intros n [s e] log n' p' log' H HA; cbn [vacts] in HA.
    - injection HA as <- <- <-. auto.
    - destruct a as [o| |al sg la d|]; cbn [vact] in HA.
      + destruct (_ && _) eqn:B; [|discriminate]. apply andb_prop in B. destruct B as [B1 B2].
        destruct (vstep inner c o (s, e)) as [[s1 e1]|] eqn:Es; [|discriminate]. eapply IH; [|exact HA].
        eapply vx_step; eauto.
        * intros m Hm. rewrite forallb_forall in B1. apply perm_b_ok, B1, in_seq. lia.
        * destruct (s_active s); [discriminate|discriminate].
      + destruct (terminate c s) as [[b s']|] eqn:Et; [|discriminate]. eapply IH; [|exact HA]. eapply vx_term; eauto.
      + eapply IH; [|exact HA]. eapply vx_params; eauto. do 4 eexists. split; [|reflexivity].
        split. apply repeat_length. apply Forall_forall. intros r Hr. apply repeat_spec in Hr. subst. auto.
      + eapply IH; [|exact HA]. apply vx_reset. auto.
  Qed.

  Lemma vscript_exec : forall x0 al sg la dt perm0 l n p log,
    vscript x0 al sg la dt perm0 l = Some (n, p, log) -> vexec inner attr c n p log.
  Proof.
    intros x0 al sg la dt perm0 l n p log H. unfold vscript in H.
    match type of H with (if ?b then _ else _) = _ => destruct b eqn:B; [|discriminate] end.
    do 4 (apply andb_prop in B; destruct B as [B ?]).
    destruct (init _ _ _ _ _ _ _ _ _ _ _) as [s0|] eqn:I; [|discriminate].
    eapply vacts_exec; [|exact H]. apply vx_init.
    unfold is_array_b in B. apply andb_prop in B. destruct B as [B1 B2]. apply Nat.eqb_eq in B1. apply Nat.leb_le in H1, H2, H3.
    exists x0, false, al, sg, la, dt, (fun _ => perm0), None, [], None. repeat split; auto.
    - apply Forall_forall. intros r Hr. rewrite forallb_forall in B2. apply Nat.eqb_eq. auto.
    - intros. apply perm_b_ok; auto.
    - discriminate.
  Qed.
End VScript.

(** the goal must have the form [exists n s e log, vexec … n (s, e) log /\ …] *)
Ltac run_vscript S :=
  let r := eval vm_compute in S in
  match r with
  | Some (?n, (?s, ?e), ?l) =>
      exists n, s, e, l;
      split; [let H := fresh in assert (H : S = Some (n, (s, e), l)) by (vm_cast_no_check (eq_refl (Some (n, (s, e), l)))); exact (vscript_exec _ _ _ _ _ _ _ _ _ _ _ _ _ H)|]
  end.

(** two runs of two particles; the second run reaches energy 5 at once *)
Definition zcv : cfg Z Z := zcfg sqf NoCorr 2 false false [CEnergyTol (Fin 5%Z)].
Definition zxv : arr Z := [[9; 7]; [3; 2]]%Z.
Definition zcv3 : cfg Z Z := zcfg sqf NoCorr 2 false false [CEnergyTol (Fin 5%Z)].
Definition zxv3 : arr Z := [[9; 7]; [3; 2]; [8; 6]]%Z.
(** a constraint with gradient x whose implicit system is solved by x_tilde *)
Definition zmulti : multi (K := Z) (V := Z) := mkmulti (fun v => v) (fun fac x xt => Ok xt).
(** a surface: the multiples of 1, projection: clipping to [-5, 5] *)
Definition zclip5 (v : Z) : Z := Z.max (-5) (Z.min 5 v).

(** clipping acts on x, not on the dual point: two steps, the first one far away *)
Lemma mirror_clipping : exists s0 o1 o2 s1 s2 s1' y1 s2' y2, constructed zcv s0 /\
  step zcv o1 s0 = Ok s1 /\ step zcv o2 s1 = Ok s2 /\
  vstep (mirror_inner (fun v => v)) zcv o1 (s0, mirror_attr (fun v : Z => v) s0) = Ok (s1', y1) /\
  vstep (mirror_inner (fun v => v)) zcv o2 (s1', y1) = Ok (s2', y2) /\
  s_x s1' = s_x s1 /\ s_x s2' <> s_x s2.
Proof.
  assert (H : exists s0 s1 s2 s1' y1 s2' y2, init zcv [[900; 700]; [300; 200]]%Z false (Fin 1%Z) (Fin 1%Z) (Fin 1%Z) (Fin 1%Z) (fun _ => [0; 1]) None [] None = Ok s0 /\
     step zcv (zorc 900 [0; 1]) s0 = Ok s1 /\ step zcv (zorc (-500) [0; 1]) s1 = Ok s2 /\
     vstep (mirror_inner (fun v => v)) zcv (zorc 900 [0; 1]) (s0, mirror_attr (fun v : Z => v) s0) = Ok (s1', y1) /\
     vstep (mirror_inner (fun v => v)) zcv (zorc (-500) [0; 1]) (s1', y1) = Ok (s2', y2) /\
     s_x s1' = s_x s1 /\ s_x s2' <> s_x s2).
  { do 7 eexists. do 5 (split; [vm_compute; reflexivity|]). split; [vm_compute; reflexivity|]. vm_compute. discriminate. }
  destruct H as (s0 & s1 & s2 & s1' & y1 & s2' & y2 & I & H). exists s0, (zorc 900 [0; 1]), (zorc (-500) [0; 1]), s1, s2, s1', y1, s2', y2.
  split; [|exact H].
  exists [[900; 700]; [300; 200]]%Z, false, (Fin 1%Z), (Fin 1%Z), (Fin 1%Z), (Fin 1%Z), (fun _ => [0; 1]), None, [], None.
  split; [split; [reflexivity|repeat constructor]|]. split; [cbn; lia|]. split; [cbn; lia|]. split; [intros; apply (perm_b_ok 2); reflexivity|].
  split; [discriminate|]. exact I.
Qed.
