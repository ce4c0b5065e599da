(** * Particles of any shape: lemmas *)
From Coq Require Import List Arith Bool Reals Lia.
From Verif Require Import Scalar Np RVec Consensus Nd Cbo Polar NdPart NdPartSpec CovFacts.
Import ListNotations.
Open Scope nat_scope.

(** ** Broadcasting *)

Inductive bok : list nat -> list nat -> list nat -> Prop :=
  | bok_nil : bok [] [] []
  | bok_cons : forall a b c s1 s2 s, bdim a b = Some c -> bok s1 s2 s -> bok (a :: s1) (b :: s2) (c :: s).
Lemma brev_snoc : forall r1 r2 r a b c, length r1 = length r2 -> brev r1 r2 = Some r -> bdim a b = Some c ->
  brev (r1 ++ [a]) (r2 ++ [b]) = Some (r ++ [c]).
Proof.
  induction r1 as [|u r1 IH]; intros [|v r2] r a b c L E D; try discriminate; cbn in *.
  - injection E as <-. rewrite D. reflexivity.
  - destruct (bdim u v) as [w|]; [|discriminate]. destruct (brev r1 r2) as [r'|] eqn:E'; [|discriminate].
    injection E as <-. rewrite (IH r2 r' a b c) by (auto with arith). reflexivity.
Qed.
Lemma bok_len : forall s1 s2 s, bok s1 s2 s -> length s1 = length s2 /\ length s = length s1.
Proof. induction 1; cbn; auto. destruct IHbok; lia. Qed.
Lemma bok_bshape : forall s1 s2 s, bok s1 s2 s -> bshape s1 s2 = Some s.
Proof.
  intros s1 s2 s H. unfold bshape. replace (Some s) with (option_map (@rev nat) (Some (rev s))) by (cbn; rewrite rev_involutive; auto).
  f_equal. induction H; auto. cbn. apply brev_snoc; auto. rewrite !rev_length. apply bok_len in H0; tauto.
Qed.
Lemma bok_refl : forall s, bok s s s.
Proof. induction s; constructor; auto using bdim_same. Qed.
Lemma bok_ones : forall s, bok s (repeat 1 (length s)) s.
Proof. induction s; cbn; constructor; auto using bdim_1_r. Qed.
Lemma bok_app : forall a1 a2 a b1 b2 b, bok a1 a2 a -> bok b1 b2 b -> bok (a1 ++ b1) (a2 ++ b2) (a ++ b).
Proof. induction 1; cbn; auto. intros; constructor; auto. Qed.

Definition bproj (s i : list nat) : list nat := map2 (fun n j => if n =? 1 then 0 else j) s i.
Lemma proj_rev_snoc : forall r i a b, length r = length i -> proj_rev (r ++ [a]) (i ++ [b]) = proj_rev r i ++ [if a =? 1 then 0 else b].
Proof. induction r as [|u r IH]; intros [|v i] a b L; try discriminate; cbn in *; auto. rewrite IH by lia. reflexivity. Qed.
Lemma proj_bproj : forall s i, length s = length i -> rev (proj_rev (rev s) (rev i)) = bproj s i.
Proof.
  induction s as [|u s IH]; intros [|v i] L; try discriminate; cbn in *; auto.
  rewrite proj_rev_snoc by (rewrite !rev_length; lia). rewrite rev_app_distr. cbn. rewrite IH by lia. reflexivity.
Qed.
Lemma bget_bproj : forall A (x : nd A) i, length (shape x) = length i -> bget x i = get x (bproj (shape x) i).
Proof. intros. unfold bget. rewrite proj_bproj; auto. Qed.

Definition inb (i s : list nat) : Prop := Forall2 lt i s.
Lemma inb_len : forall i s, inb i s -> length s = length i.
Proof. induction 1; cbn; auto. Qed.
Lemma bproj_inb : forall i s, inb i s -> bproj s i = i.
Proof. induction 1; cbn; auto. unfold bproj in IHForall2. rewrite IHForall2. destruct (Nat.eqb_spec y 1); auto. f_equal. lia. Qed.
Lemma bget_inb : forall A (x : nd A) i, inb i (shape x) -> bget x i = get x i.
Proof. intros. rewrite bget_bproj by (apply inb_len; auto). rewrite bproj_inb; auto. Qed.
Lemma bproj_app : forall s1 s2 i1 i2, length s1 = length i1 -> bproj (s1 ++ s2) (i1 ++ i2) = bproj s1 i1 ++ bproj s2 i2.
Proof. induction s1 as [|u s1 IH]; intros s2 [|v i1] i2 L; try discriminate; cbn in *; auto. unfold bproj in IH. rewrite IH by lia. reflexivity. Qed.
Lemma bproj_lt : forall n j, j < n -> (if n =? 1 then 0 else j) = j.
Proof. intros n j H. destruct (Nat.eqb_spec n 1); auto. lia. Qed.
Lemma bproj_ones : forall i, bproj (repeat 1 (length i)) i = repeat 0 (length i).
Proof. induction i; cbn; auto. unfold bproj in IHi. rewrite IHi. auto. Qed.

Lemma in_indices : forall dims ix, In ix (indices dims) <-> inb ix dims.
Proof.
  induction dims as [|n r IH]; intros ix; cbn.
  - split; [intros [<-|[]]; constructor|inversion 1; auto].
  - rewrite in_flat_map. split.
    + intros (i & Hi & H). apply in_map_iff in H. destruct H as (t & <- & Ht). apply in_seq in Hi. constructor; [lia|]. apply IH; auto.
    + inversion 1 as [|i n' t r' Hi Ht]; subst. exists i. split; [apply in_seq; lia|]. apply in_map. apply IH; auto.
Qed.

(** ** Lists *)

Lemma map2_map : forall A B C D (f : B -> C -> D) (g : A -> B) (h : A -> C) l, map2 f (map g l) (map h l) = map (fun a => f (g a) (h a)) l.
Proof. induction l; cbn; f_equal; auto. Qed.
Lemma map_seq_nth : forall A B (f : nat -> B) (g : A -> B) (l : list A) d, (forall i, i < length l -> f i = g (nth i l d)) ->
  map f (seq 0 (length l)) = map g l.
Proof.
  intros A B f g l d H. apply nth_ext with (d := f 0) (d' := f 0).
  - rewrite !map_length, seq_length; auto.
  - intros i Hi. rewrite map_length, seq_length in Hi. rewrite (map_nth f (seq 0 (length l)) 0 i), seq_nth by auto. cbn.
    rewrite (nth_indep _ _ (g d)) by (rewrite map_length; auto). rewrite map_nth. auto.
Qed.
Lemma column_points : forall A (g : nat -> A -> fl R) (l : list A) (ns : list nat) i d, i < length l ->
  column i (map (fun n => map (g n) l) ns) = map (fun n => g n (nth i l d)) ns.
Proof.
  intros. unfold column. rewrite map_map. apply map_ext. intros n.
  rewrite (nth_indep _ _ (g n d)) by (rewrite map_length; auto). apply map_nth.
Qed.
Lemma wmean_points : forall A (g : nat -> A -> fl R) (l : list A) N cs, 0 < N ->
  wmean cs (map (fun n => map (g n) l) (seq 0 N)) = map (fun a => fsum (map2 fmul (map (fun n => g n a) (seq 0 N)) cs)) l.
Proof.
  intros A g l N cs HN. unfold wmean. replace (dim (map (fun n => map (g n) l) (seq 0 N))) with (length l).
  2:{ unfold dim. destruct N; [lia|]. cbn. rewrite map_length; auto. }
  destruct l as [|d l']; [reflexivity|]. apply map_seq_nth with (d := d). intros i Hi. rewrite (column_points _ g _ _ i d) by auto. reflexivity.
Qed.
Lemma softmax_length : forall l, length (softmax l) = length l.
Proof. intros. unfold softmax. apply map_length. Qed.
Lemma map2_seq_nth : forall (f : nat -> fl R) (cs : list (fl R)) N, length cs = N ->
  map2 fmul (map f (seq 0 N)) cs = map (fun n => fmul (f n) (nth n cs NaN)) (seq 0 N).
Proof.
  intros f cs N H. rewrite <- (map2_map _ _ _ _ fmul f (fun n => nth n cs NaN)). f_equal. subst N.
  transitivity (map (fun a : fl R => a) cs); [symmetry; apply map_id|]. symmetry. apply map_seq_nth with (d := NaN). auto.
Qed.
Lemma sum_coeffs : forall (f : nat -> fl R) (w : list (fl R)) N, length w = N ->
  fsum (map (fun n => fmul (f n) (nth n (softmax w) NaN)) (seq 0 N)) = fsum (map2 fmul (map f (seq 0 N)) (softmax w)).
Proof. intros. rewrite map2_seq_nth; auto. rewrite softmax_length; auto. Qed.

(** ** The step of CBO *)

Section Step.
Variables (M N : nat) (dims : list nat).
Local Notation q := (length dims).

Lemma consensus_ok : forall energy x alpha, shape energy = [M; N] -> shape x = M :: N :: dims -> shape alpha = [M; 1] ->
  exists c, nd_consensus energy x alpha = Ok c /\ shape c = M :: 1 :: dims /\
    (forall m i ix, m < M -> inb ix dims ->
       get c (m :: i :: ix) = fsum (map2 fmul (map (fun n => get x (m :: n :: ix)) (seq 0 N)) (coeffs (row energy m) (get alpha [m; 0])))).
Proof.
  intros energy x alpha He Hx Ha. unfold nd_consensus.
  rewrite (lift2_ok _ _ _ _ _ _ [M; N]).
  2:{ apply bok_bshape. cbn. rewrite He, Ha. repeat constructor; auto using bdim_same, bdim_1_l. }
  cbn [bind]. rewrite (lift2_ok _ _ _ _ _ _ (M :: N :: dims)).
  2:{ apply bok_bshape. cbn. rewrite Hx. cbn. rewrite Nat.sub_0_r. repeat constructor; auto using bdim_same, bok_ones. }
  cbn [bind]. eexists. split; [reflexivity|]. split; [reflexivity|].
  intros m i ix Hm Hix. cbn [get sum_axis1 shape].
  assert (Hlen : length ix = q) by (symmetry; apply inb_len; auto).
  set (w := map (fun ei => fmul (fopp (get alpha [m; 0])) ei) (row energy m)).
  assert (Hw : length w = N) by (unfold w, row; rewrite !map_length, seq_length, He; auto).
  change (coeffs (row energy m) (get alpha [m; 0])) with (softmax w). rewrite <- sum_coeffs by auto. f_equal. apply map_ext_in.
  intros n Hn. apply in_seq in Hn. f_equal.
  - apply bget_inb. rewrite Hx. repeat constructor; auto; lia.
  - rewrite bget_bproj by (cbn; rewrite Hx; cbn; rewrite repeat_length; lia).
    cbn [expand_last shape softmax_last app length get]. rewrite Hx. cbn [length Nat.sub bproj map2 firstn].
    rewrite bproj_lt by auto. rewrite (bproj_lt N n) by lia. cbn [last removelast app].
    f_equal. f_equal. unfold w, row. rewrite map_map, He. cbn [nth]. apply map_ext_in. intros j Hj. apply in_seq in Hj. f_equal.
    + rewrite bget_bproj by (cbn; rewrite Ha; auto). cbn [lift1 shape get]. rewrite Ha. cbn. rewrite bproj_lt by auto. reflexivity.
    + apply bget_inb. rewrite He. repeat constructor; auto; lia.
Qed.

Lemma norms_at : forall x m n ix, shape x = M :: N :: dims -> m < M -> n < N -> length ix = q ->
  bget (nd_norms x) (m :: n :: ix) = fnorm (point x m n).
Proof.
  intros x m n ix Hx Hm Hn Hl. unfold nd_norms, point. rewrite Hx. rewrite bget_bproj by (cbn; rewrite repeat_length; lia).
  cbn [shape get bproj map2 skipn]. rewrite bproj_lt by auto. rewrite (bproj_lt N n) by auto. reflexivity.
Qed.

Lemma noise_ok : forall k dt drift z, shape drift = M :: N :: dims -> shape z = M :: N :: dims ->
  exists nz, nd_noise k dt drift z = Ok nz /\ shape nz = M :: N :: dims /\
    (forall m n, m < M -> n < N -> point nz m n = noise_of k dt (point drift m n) (point z m n)).
Proof.
  intros k dt drift z Hd Hz. unfold nd_noise. destruct k.
  - cbn [bind]. eexists. split; [reflexivity|]. split; [cbn; auto|]. intros m n Hm Hn. unfold noise_of, point. cbn. rewrite map_map. reflexivity.
  - rewrite (lift2_ok _ _ _ _ _ _ (M :: N :: dims)).
    2:{ apply bok_bshape. unfold nd_norms. rewrite Hd, Hz. cbn. repeat constructor; auto using bdim_same, bok_ones. }
    cbn [bind]. eexists. split; [reflexivity|]. split; [cbn; auto|]. intros m n Hm Hn. unfold noise_of.
    unfold point at 1 3. cbn [lift1 shape get skipn]. rewrite Hz. cbn [skipn]. rewrite !map_map. apply map_ext_in. intros ix Hix. apply in_indices in Hix.
    f_equal. f_equal.
    + apply bget_inb. rewrite Hz. repeat constructor; auto.
    + apply norms_at; auto. symmetry; apply inb_len; auto.
  - rewrite (lift2_ok _ _ _ _ _ _ (M :: N :: dims)).
    2:{ apply bok_bshape. rewrite Hd, Hz. apply bok_refl. }
    cbn [bind]. eexists. split; [reflexivity|]. split; [cbn; auto|]. intros m n Hm Hn. unfold noise_of.
    unfold point. cbn [lift1 shape get skipn]. rewrite Hd, Hz. cbn [skipn]. rewrite map2_map, !map_map. apply map_ext_in. intros ix Hix. apply in_indices in Hix.
    f_equal. f_equal; apply bget_inb; rewrite ?Hz, ?Hd; repeat constructor; auto.
Qed.

(** [cn] is 1 for one consensus point per run and N for one per particle *)
Lemma move_ok : forall k lamda dt sigma x c z cn, shape x = M :: N :: dims -> shape c = M :: cn :: dims -> cn = 1 \/ cn = N ->
  shape z = M :: N :: dims ->
  exists x', nd_move k lamda dt sigma x c z = Ok x' /\ shape x' = M :: N :: dims /\
    (forall m n, m < M -> n < N -> point x' m n = moved k lamda dt sigma (point x m n) (point c m (if cn =? 1 then 0 else n)) (point z m n)).
Proof.
  intros k lamda dt sigma x c z cn Hx Hc Hcn Hz. unfold nd_move.
  rewrite (lift2_ok _ _ _ _ _ _ (M :: N :: dims)).
  2:{ apply bok_bshape. rewrite Hx, Hc. constructor; [apply bdim_same|]. constructor; [|apply bok_refl]. destruct Hcn; subst; auto using bdim_same, bdim_1_r. }
  cbn [bind]. set (drift := mknd _ _). 
  destruct (noise_ok k dt drift z eq_refl Hz) as (nz & -> & Hn & Pn). cbn [bind].
  rewrite (lift2_ok _ _ _ _ _ _ (M :: N :: dims)).
  2:{ apply bok_bshape. cbn. rewrite Hn. apply bok_refl. }
  cbn [bind]. unfold iadd. rewrite (lift2_ok _ _ _ _ _ _ (M :: N :: dims)).
  2:{ apply bok_bshape. cbn. rewrite Hx. apply bok_refl. }
  cbn [bind shape]. rewrite Hx. destruct (list_eq_dec Nat.eq_dec (M :: N :: dims) (M :: N :: dims)) as [_|F]; [|congruence].
  eexists. split; [reflexivity|]. split; [reflexivity|]. intros m n Hm Hnn.
  unfold moved.
  assert (Pd : map2 fsub (point x m n) (point c m (if cn =? 1 then 0 else n)) = point drift m n).
  { unfold point. cbn [drift shape get]. rewrite Hx, Hc. cbn [skipn]. rewrite map2_map. apply map_ext_in. intros ix Hix. apply in_indices in Hix.
    f_equal; symmetry.
    - apply bget_inb. rewrite Hx. repeat constructor; auto.
    - rewrite bget_bproj by (rewrite Hc; cbn; f_equal; f_equal; apply inb_len; auto). rewrite Hc. cbn [bproj map2].
      rewrite bproj_lt by auto. fold (bproj dims ix). rewrite bproj_inb by auto. reflexivity. }
  rewrite Pd, <- Pn by auto. unfold point. cbn [shape get]. rewrite Hx, Hn. cbn [skipn drift shape]. rewrite !map_map, !map2_map.
  apply map_ext_in. intros ix Hix. apply in_indices in Hix. 
  assert (B : inb (m :: n :: ix) (M :: N :: dims)) by (repeat constructor; auto).
  f_equal; [apply bget_inb; rewrite Hx; auto|]. rewrite bget_inb by exact B. cbn [get]. f_equal.
  - rewrite bget_inb by exact B. reflexivity.
  - rewrite bget_inb by (cbn; rewrite Hn; exact B). reflexivity.
Qed.

Lemma points_eq : forall x m, shape x = M :: N :: dims -> points x m = map (fun n => map (fun ix => get x (m :: n :: ix)) (indices dims)) (seq 0 N).
Proof. intros x m Hx. unfold points, point. rewrite Hx. reflexivity. Qed.

Lemma consensus_flat : forall energy x alpha, shape energy = [M; N] -> shape x = M :: N :: dims -> shape alpha = [M; 1] ->
  exists c, nd_consensus energy x alpha = Ok c /\ shape c = M :: 1 :: dims /\
    (forall m, m < M -> 0 < N -> [point c m 0] = cc_default (row energy m) (points x m) (get alpha [m; 0])).
Proof.
  intros energy x alpha He Hx Ha. destruct (consensus_ok energy x alpha He Hx Ha) as (c & E & Hc & G).
  exists c. split; [auto|]. split; [auto|]. intros m Hm HN. unfold cc_default. f_equal. rewrite points_eq by auto.
  rewrite (wmean_points _ (fun n ix => get x (m :: n :: ix))) by auto. unfold point. rewrite Hc. cbn [skipn].
  apply map_ext_in. intros ix Hix. apply in_indices in Hix. apply G; auto.
Qed.

Lemma step_flat : forall k lamda dt sigma energy x alpha z,
  shape energy = [M; N] -> shape x = M :: N :: dims -> shape alpha = [M; 1] -> shape z = M :: N :: dims ->
  exists x', nd_step k lamda dt sigma energy x alpha z = Ok x' /\ shape x' = M :: N :: dims /\
    (forall m n, m < M -> n < N -> exists c, cc_default (row energy m) (points x m) (get alpha [m; 0]) = [c] /\
       point x' m n = moved k lamda dt sigma (point x m n) c (point z m n)).
Proof.
  intros k lamda dt sigma energy x alpha z He Hx Ha Hz. unfold nd_step.
  destruct (consensus_flat energy x alpha He Hx Ha) as (c & -> & Hc & Pc). cbn [bind].
  destruct (move_ok k lamda dt sigma x c z 1 Hx Hc (or_introl eq_refl) Hz) as (x' & E & Hx' & P).
  exists x'. split; [auto|]. split; [auto|]. intros m n Hm Hn. exists (point c m 0). split; [rewrite <- Pc by (auto; lia); auto|].
  rewrite P by auto. reflexivity.
Qed.
End Step.
