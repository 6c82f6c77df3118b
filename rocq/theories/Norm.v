(** * Absolute values and Euclidean norms of complex vectors *)

From Coq Require Import Reals List Arith Lia Lra Psatz.
From Verif Require Import Scalar RealOps Spec DftFacts CoreStage.
Local Open Scope R_scope.

(** |z| *)
Definition cabs (z : CC) : R := sqrt (cnorm2 z).
(** Euclidean norm of X 0, ..., X (N-1) *)
Definition nrm (N : nat) (X : nat -> CC) : R := sqrt (rsum N (fun i => cnorm2 (X i))).

Lemma cnorm2_pos z : 0 <= cnorm2 z.
Proof. destruct z as [a b]. unfold cnorm2. cbn [fst snd]. nra. Qed.
Lemma cabs_pos z : 0 <= cabs z.
Proof. apply sqrt_pos. Qed.
Lemma cabs_sq z : cabs z * cabs z = cnorm2 z.
Proof. apply sqrt_def, cnorm2_pos. Qed.
Lemma cnorm2_mul a b : cnorm2 (cmul a b) = cnorm2 a * cnorm2 b.
Proof. destruct a, b. unfold cnorm2. creduce. ring. Qed.
Lemma cabs_mul a b : cabs (cmul a b) = cabs a * cabs b.
Proof. unfold cabs. rewrite cnorm2_mul. apply sqrt_mult; apply cnorm2_pos. Qed.
Lemma cabs_le z B : 0 <= B -> cnorm2 z <= B * B -> cabs z <= B.
Proof. intros HB H. unfold cabs. rewrite <- (sqrt_square B HB). apply sqrt_le_1_alt. exact H. Qed.
Lemma sq_le a b : 0 <= b -> a * a <= b * b -> a <= b.
Proof. intros Hb H. destruct (Rle_or_lt a b); auto. nra. Qed.

Lemma tri_sq a b c d A B : 0 <= A -> 0 <= B -> a * a + b * b = A * A -> c * c + d * d = B * B -> a * c + b * d <= A * B.
Proof.
  intros HA HB E1 E2. apply sq_le; [nra|].
  replace (A * B * (A * B)) with ((A * A) * (B * B)) by ring. rewrite <- E1, <- E2.
  pose proof (Rle_0_sqr (a * d - b * c)) as H. unfold Rsqr in H. nra.
Qed.
Lemma cabs_add a b : cabs (cadd a b) <= cabs a + cabs b.
Proof.
  pose proof (cabs_pos a). pose proof (cabs_pos b). apply cabs_le; [lra|].
  pose proof (cabs_sq a) as Ea. pose proof (cabs_sq b) as Eb.
  destruct a as [a1 a2], b as [b1 b2]. unfold cnorm2 in *. creduce.
  pose proof (tri_sq a1 a2 b1 b2 _ _ H H0 (eq_sym Ea) (eq_sym Eb)). nra.
Qed.
Lemma cabs_neg a : cabs (cneg a) = cabs a.
Proof. unfold cabs. f_equal. destruct a. unfold cnorm2. creduce. ring. Qed.
Lemma cabs_sub a b : cabs (csub a b) <= cabs a + cabs b.
Proof. replace (csub a b) with (cadd a (cneg b)) by ring. rewrite <- (cabs_neg b). apply cabs_add. Qed.
Lemma cabs_sub_sym a b : cabs (csub a b) = cabs (csub b a).
Proof. rewrite <- cabs_neg. f_equal. ring. Qed.
Lemma cabs_conj a : cabs (cconj a) = cabs a.
Proof. unfold cabs. f_equal. destruct a. unfold cnorm2. creduce. ring. Qed.
Lemma cabs_jx a : cabs (jx a) = cabs a.
Proof. unfold cabs. f_equal. destruct a. unfold cnorm2. creduce. ring. Qed.
Lemma cabs_scal r a : cabs (cscal r a) = Rabs r * cabs a.
Proof.
  unfold cabs. rewrite <- sqrt_Rsqr_abs, <- sqrt_mult; [|apply Rle_0_sqr|apply cnorm2_pos].
  f_equal. destruct a. unfold cnorm2, Rsqr. creduce. ring.
Qed.
Lemma cabs_tri a b c : cabs (csub a c) <= cabs (csub a b) + cabs (csub b c).
Proof. replace (csub a c) with (cadd (csub a b) (csub b c)) by ring. apply cabs_add. Qed.
Lemma cabs_near a b : cabs a <= cabs b + cabs (csub a b).
Proof. replace a with (cadd b (csub a b)) at 1 by ring. apply cabs_add. Qed.
Lemma cabs_comp z a b : Rabs (fst z) <= a -> Rabs (snd z) <= b -> cabs z <= sqrt (a * a + b * b).
Proof.
  intros Ha Hb. apply sqrt_le_1_alt. destruct z as [x y]. unfold cnorm2. cbn [fst snd] in *.
  pose proof (Rabs_pos x). pose proof (Rabs_pos y).
  assert (x * x = Rabs x * Rabs x) by (rewrite <- Rabs_mult; symmetry; apply Rabs_right; nra).
  assert (y * y = Rabs y * Rabs y) by (rewrite <- Rabs_mult; symmetry; apply Rabs_right; nra).
  nra.
Qed.
Lemma cis_norm t : cnorm2 (cis t) = 1.
Proof. unfold cnorm2, cis. cbn [fst snd]. pose proof (sin2_cos2 t) as H. unfold Rsqr in H. lra. Qed.
Lemma cnorm2_W inv N k : cnorm2 (W inv N k) = 1.
Proof. apply cis_norm. Qed.
Lemma cabs_W inv N k : cabs (W inv N k) = 1.
Proof. unfold cabs. rewrite cnorm2_W. apply sqrt_1. Qed.
Lemma cabs_0 : cabs (0, 0) = 0.
Proof. unfold cabs, cnorm2. cbn [fst snd]. replace (0 * 0 + 0 * 0) with 0 by ring. apply sqrt_0. Qed.
Lemma cabs_c0 : cabs (@c0 ROps) = 0.
Proof. exact cabs_0. Qed.

(** ** sums *)
Lemma rsum_le n f g : (forall i, (i < n)%nat -> f i <= g i) -> rsum n f <= rsum n g.
Proof. induction n as [|n IH]; cbn; intros H; [lra|]. pose proof (IH ltac:(auto)). pose proof (H n ltac:(lia)). lra. Qed.
Lemma rsum_pos n f : (forall i, (i < n)%nat -> 0 <= f i) -> 0 <= rsum n f.
Proof. induction n as [|n IH]; cbn; intros H; [lra|]. pose proof (IH ltac:(auto)). pose proof (H n ltac:(lia)). lra. Qed.
Lemma rsum_app n m f : rsum (n + m) f = rsum n f + rsum m (fun i => f (n + i)%nat).
Proof. induction m as [|m IH]; [rewrite Nat.add_0_r; cbn; ring|]. rewrite Nat.add_succ_r. cbn [rsum]. rewrite IH. ring. Qed.
Lemma rsum_0 n : rsum n (fun _ => 0) = 0.
Proof. induction n as [|n IH]; cbn; [auto|]. rewrite IH. ring. Qed.
Lemma rsum_swap n m f : rsum n (fun i => rsum m (fun j => f i j)) = rsum m (fun j => rsum n (fun i => f i j)).
Proof.
  induction n as [|n IH]; cbn [rsum]; [symmetry; apply rsum_0|]. rewrite IH, <- rsum_add. reflexivity.
Qed.
(** i = p + m*j *)
Lemma rsum_split_hi r m f : rsum (m * r) f = rsum m (fun p => rsum r (fun i => f (p + m * i)%nat)).
Proof.
  rewrite rsum_swap. induction r as [|r IH]; [rewrite Nat.mul_0_r; reflexivity|].
  cbn [rsum]. rewrite <- IH. replace (m * S r)%nat with (m * r + m)%nat by lia.
  rewrite rsum_app. f_equal. apply rsum_ext. intros i _. f_equal. lia.
Qed.
(** (sum a_i)^2 <= r sum a_i^2 *)
Lemma rsum_cs r a : rsum r a * rsum r a <= INR r * rsum r (fun i => a i * a i).
Proof.
  induction r as [|r IH]; [cbn; lra|]. cbn [rsum]. rewrite S_INR. set (A := rsum r a) in *. set (Q := rsum r (fun i => a i * a i)) in *.
  assert (H : 2 * A * a r <= Q + INR r * (a r * a r)).
  { clear IH. unfold A, Q. induction r as [|r IH]; [cbn; nra|].
    cbn [rsum]. rewrite S_INR. set (A' := rsum r a) in *. 
    assert (G : forall x, 2 * rsum r a * x <= rsum r (fun i => a i * a i) + INR r * (x * x)).
    { clear. intros x. induction r as [|r IH]; [cbn; nra|]. cbn [rsum]. rewrite S_INR. pose proof (Rle_0_sqr (a r - x)) as H. unfold Rsqr in H. nra. }
    specialize (G (a (S r))). fold A' in G. pose proof (Rle_0_sqr (a r - a (S r))) as H. unfold Rsqr in H. nra. }
  nra.
Qed.
Lemma csum_abs n f : cabs (csum n f) <= rsum n (fun i => cabs (f i)).
Proof. induction n as [|n IH]; cbn [csum rsum]; [rewrite cabs_0; lra|]. pose proof (cabs_add (csum n f) (f n)). lra. Qed.

(** ** norms *)
Lemma nrm_pos N X : 0 <= nrm N X.
Proof. apply sqrt_pos. Qed.
Lemma nrm_sq N X : nrm N X * nrm N X = rsum N (fun i => cnorm2 (X i)).
Proof. apply sqrt_def, rsum_pos. intros; apply cnorm2_pos. Qed.
Lemma nrm_le N X B : 0 <= B -> rsum N (fun i => cnorm2 (X i)) <= B * B -> nrm N X <= B.
Proof. intros HB H. unfold nrm. rewrite <- (sqrt_square B HB). apply sqrt_le_1_alt. exact H. Qed.
Lemma nrm_ext N X Y : (forall i, (i < N)%nat -> X i = Y i) -> nrm N X = nrm N Y.
Proof. intros H. unfold nrm. f_equal. apply rsum_ext. intros i Hi. rewrite H; auto. Qed.
Lemma nrm_tri N X Y : nrm N (fun i => cadd (X i) (Y i)) <= nrm N X + nrm N Y.
Proof.
  induction N as [|N IH]; [unfold nrm; cbn; rewrite sqrt_0; lra|].
  pose proof (nrm_pos (S N) X) as P1. pose proof (nrm_pos (S N) Y) as P2. apply nrm_le; [lra|].
  cbn [rsum]. rewrite <- nrm_sq, <- cabs_sq.
  pose proof (nrm_sq (S N) X) as EX. pose proof (nrm_sq (S N) Y) as EY. cbn [rsum] in EX, EY.
  rewrite <- (nrm_sq N), <- cabs_sq in EX, EY.
  pose proof (nrm_pos N X) as P3. pose proof (nrm_pos N Y) as P4. pose proof (nrm_pos N (fun i => cadd (X i) (Y i))) as P5.
  pose proof (cabs_pos (X N)). pose proof (cabs_pos (Y N)). pose proof (cabs_pos (cadd (X N) (Y N))). pose proof (cabs_add (X N) (Y N)).
  set (a := nrm N X) in *. set (b := cabs (X N)) in *. set (c := nrm N Y) in *. set (d := cabs (Y N)) in *.
  pose proof (tri_sq a b c d _ _ P1 P2 (eq_sym EX) (eq_sym EY)) as HT.
  set (p := nrm N (fun i => cadd (X i) (Y i))) in *. set (q := cabs (cadd (X N) (Y N))) in *.
  assert (p * p <= (a + c) * (a + c)) by (apply Rmult_le_compat; auto).
  assert (q * q <= (b + d) * (b + d)) by (apply Rmult_le_compat; auto). nra.
Qed.
Definition vsub (X Y : nat -> CC) (i : nat) : CC := csub (X i) (Y i).
Lemma nrm_tri3 N X Y Z : nrm N (vsub X Z) <= nrm N (vsub X Y) + nrm N (vsub Y Z).
Proof.
  rewrite (nrm_ext N (vsub X Z) (fun i => cadd (vsub X Y i) (vsub Y Z i))); [apply nrm_tri|].
  intros i _. unfold vsub. ring.
Qed.
Lemma nrm_near N X Y : nrm N X <= nrm N Y + nrm N (vsub X Y).
Proof.
  rewrite (nrm_ext N X (fun i => cadd (Y i) (vsub X Y i))); [apply nrm_tri|]. intros i _. unfold vsub. ring.
Qed.
Lemma nrm_scal N c X : nrm N (fun i => cscal c (X i)) = Rabs c * nrm N X.
Proof.
  unfold nrm. rewrite <- sqrt_Rsqr_abs, <- sqrt_mult; [|apply Rle_0_sqr|apply rsum_pos; intros; apply cnorm2_pos].
  f_equal. rewrite <- rsum_mul. apply rsum_ext. intros i _. destruct (X i). unfold cnorm2, Rsqr. creduce. ring.
Qed.
(** pointwise relative bound *)
Lemma nrm_rel N X Y c : 0 <= c -> (forall i, (i < N)%nat -> cabs (X i) <= c * cabs (Y i)) -> nrm N X <= c * nrm N Y.
Proof.
  intros Hc H. pose proof (nrm_pos N Y). apply nrm_le; [nra|].
  replace (c * nrm N Y * (c * nrm N Y)) with (c * c * (nrm N Y * nrm N Y)) by ring. rewrite nrm_sq, <- rsum_mul.
  apply rsum_le. intros i Hi. rewrite <- !cabs_sq. specialize (H i Hi). pose proof (cabs_pos (X i)).
  replace (c * c * (cabs (Y i) * cabs (Y i))) with ((c * cabs (Y i)) * (c * cabs (Y i))) by ring. apply Rmult_le_compat; auto.
Qed.
Lemma nrm_vsub_sym N X Y : nrm N (vsub X Y) = nrm N (vsub Y X).
Proof. unfold nrm. f_equal. apply rsum_ext. intros i _. rewrite <- !cabs_sq. unfold vsub. rewrite cabs_sub_sym. reflexivity. Qed.
Lemma nrm_0 N : nrm N (fun _ => (0, 0)) = 0.
Proof.
  assert (E : rsum N (fun i => cnorm2 ((fun _ => (0, 0)) i)) = rsum N (fun _ => 0)) by (apply rsum_ext; intros i _; unfold cnorm2; cbn [fst snd]; ring).
  unfold nrm. rewrite E, rsum_0. apply sqrt_0.
Qed.
