(** * Mean values over several steps: examples *)
From Coq Require Import String List Arith Bool Reals Lia Lra.
From Verif Require Import Scalar Np NpFacts State Pdyn Exec Script RVec RVecFacts Consensus ConsSpec Cbo CboSpec ExCbo MomentSpec MomentFacts ExMoment MsSpec MsFacts.
Import ListNotations.
Open Scope R_scope.

(** three fair signs and their products: six uncorrelated numbers *)
Definition wO : Type := bool * bool * bool.
Definition outcomes : list wO := [(true, true, true); (true, true, false); (true, false, true); (true, false, false); (false, true, true); (false, true, false); (false, false, true); (false, false, false)].
Definition walsh : average wO := uniform outcomes ltac:(discriminate).
Definition wxi (n : nat) (w : wO) : list R := let a := sgn (fst (fst w)) in let b := sgn (snd (fst w)) in let c := sgn (snd w) in
  match n with 0%nat => [a; b] | 1%nat => [c; a * b] | _ => [a * c; b * c] end.
Lemma walsh_white : white_family walsh 3 2 1 wxi.
Proof.
  split.
  - intros n Hn. destruct n as [|[|[|n]]]; [| | |lia]; (split; [reflexivity|]; split);
      try (intros i Hi; destruct i as [|[|i]]; [| |lia]; cbn; unfold uniform_mean; cbn; lra);
      (intros i j Hi Hj; destruct i as [|[|i]]; [| |lia]; (destruct j as [|[|j]]; [| |lia]); cbn; unfold uniform_mean; cbn; lra).
  - intros n n' i j Hn Hn' Hne Hi Hj. destruct n as [|[|[|n]]]; [| | |lia]; (destruct n' as [|[|[|n']]]; [| | |lia]); try congruence;
      (destruct i as [|[|i]]; [| |lia]); (destruct j as [|[|j]]; [| |lia]); cbn; unfold uniform_mean; cbn; lra.
Qed.
Definition worc (w : wO) : orc vec := {| o_z := fun k n => floats (wxi n w); o_perm := fun _ => [1; 0; 2]%nat |}.

Definition msc : cfg R vec := cbo_cfg sqf NIso (fun p => p) NoCorr 3 false false [] false.
Lemma ms_case : exists s, exec msc s [] /\ finite_obj 2 sqf /\ NIso <> NConst /\ nonexpansive 2 (fun p => p) /\ finite_alpha s /\ parameters 1 (1 / 10) (1 / 3) s /\ 3%nat = s_N s /\
  ensemble_at s 0 2 cX /\ In 0%nat (s_active s) /\ white_input walsh 0 2 1 s worc /\ between msc s s /\
  2 * (INR (s_N s) - 1) * noise_dim NIso 2 * (1 / 3) ^ 2 * 1 < 2 * 1 - 1 ^ 2 * (1 / 10).
Proof.
  destruct (cinit_ok msc 1 1 (1 / 10) (1 / 3)) as (s & E0 & E & HM & HN & HA & P & FA & HP & HX & _ & _ & _). cbn; lia. lra.
  exists s. split; [exact E|]. split; [apply sqf_finite|]. split; [discriminate|]. split; [apply identity_nonexpansive|]. split; [exact FA|]. split; [exact HP|]. split; [auto|].
  split; [exact HX|]. split; [rewrite HA; cbn; auto|]. split; [|split; [constructor|rewrite HN; cbn; lra]].
  exists 0%nat, wxi. split; [rewrite HA; auto|]. rewrite HN. split; [exact walsh_white|]. intros w. split; [|reflexivity].
  intros m Hm. rewrite HN. apply (perm_b_ok 3). reflexivity.
Qed.
