(** * Examples for the samplers *)
From Coq Require Import List Arith Bool Reals Lra Lia.
From Verif Require Import Scalar Np RVec ConsSpec MomentSpec MomentFacts ExMoment Samplers SamplerSpec.
Import ListNotations.
Open Scope R_scope.

(** magnitudes 0 or 2 (for both coordinates), two fair signs *)
Definition outcomes8 : list (bool * (bool * bool)) := [(true, (true, true)); (true, (true, false)); (true, (false, true)); (true, (false, false)); (false, (true, true)); (false, (true, false)); (false, (false, true)); (false, (false, false))].
Definition avg8 : average (bool * (bool * bool)) := uniform outcomes8 ltac:(discriminate).
Definition mag8 (w : bool * (bool * bool)) : list R := if fst w then [2; 2] else [0; 0].
Definition sgn8 (w : bool * (bool * bool)) : list R := sxi (snd w).
Definition bit8 (w : bool * (bool * bool)) : list nat := [if fst (snd w) then 1 else 0; if snd (snd w) then 1 else 0]%nat.
Lemma mag8_ok : exponentials avg8 2 mag8.
Proof.
  split. { intros [[] w]; cbn; split; auto; repeat constructor; lra. }
  intros i Hi. destruct i as [|[|]]; [| |lia]; (split; [|split]; [cbn; unfold uniform_mean; cbn; lra|cbn; unfold uniform_mean; cbn; lra|intros j Hj; exists 2; destruct j as [|[|]]; [| |lia]; cbn; unfold uniform_mean; cbn; lra]).
Qed.
Lemma sgn8_ok : fair_signs avg8 2 mag8 sgn8.
Proof.
  split. { intros [b [[] []]]; cbn; split; auto; repeat constructor; lra. }
  intros h r HE HM i j Hi Hj. cbn in HM. unfold uniform_mean in HM. cbn in HM.
  assert (E : forall b p, h (b, p) = h (b, (true, true))) by (intros [] [p q]; apply HE; reflexivity).
  rewrite !(E _ (true, false)), !(E _ (false, true)), !(E _ (false, false)) in HM.
  destruct i as [|[|]]; [| |lia]; (destruct j as [|[|]]; [| |lia]); cbn; unfold uniform_mean; cbn; rewrite !(E _ (true, false)), !(E _ (false, true)), !(E _ (false, false)); split; lra.
Qed.
Lemma bit8_ok : (forall w, Forall (fun k => k = 0%nat \/ k = 1%nat) (bit8 w)) /\ forall w, map (fun k => if (k =? 0)%nat then -1 else 1) (bit8 w) = sgn8 w.
Proof. split; intros [b [[] []]]; cbn; try reflexivity; repeat apply Forall_cons; auto. Qed.
