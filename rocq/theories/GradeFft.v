(** * No overflow: the growth of the data over the passes of a transform (see Grade.v) *)

From Coq Require Import Reals ZArith List Bool Arith Lia Lra Psatz.
From Flocq Require Import Core.Core IEEE754.BinarySingleNaN.
From Verif Require Import Scalar RealOps Simd PropMysqrt Norm Mem Lanes Engine Butterfly ModelMixed ModelMixedClass ModelSix ModelApi ModelReal ModelBluestein Blocks Stage CoreStage
  Twid MixedStage MixedDrive MixedRun FactorFacts MixedClassFacts ModelPow PowDrive PowKern PowRun PowClassFacts SixIndex SixRun SixPart SixEight SixClass
  ApiFacts RealFacts RealRun DctRun BluesteinRun Param ParamKern ParamFft Ieee64 Grade.
Import ListNotations.

(** a table entry and an input, in the arithmetic of grades *)
Definition gW : @C grade := ((0, 1), (0, 1)).
Definition gX : @C grade := ((1, 0), (1, 0)).
Definition okg (c : nat) (x : nat * nat) : bool := (fst x <=? 1) && (snd x <=? c).
Definition okD (c : nat) (l : list (@C grade)) : bool := forallb (fun z => okg c (fst z) && okg c (snd z)) l.

Section GradeFft.
Variables (dc ds : double -> double) (la : R) (L : libm dc ds la) (Hla : (la <= 1)%R) (bd : build).
Notation Op := (ieee dc ds bd).
Notation S e := (grade_sim dc ds la L Hla bd e).
Notation CRg e := (@CR Op grade (GR e)).
Notation LRg e := (@LR Op grade (GR e)).
Notation cplx := (@C Op).

Definition GC (n : nat) (z : cplx) : Prop := small n (fst z) /\ small n (snd z).
Definition GV (M n : nat) (X : nat -> cplx) : Prop := forall i, i < M -> GC n (X i).
Lemma GC_le n m z : n <= m -> GC n z -> GC m z.
Proof. intros H [H1 H2]. split; [exact (small_le _ _ _ H H1)|exact (small_le _ _ _ H H2)]. Qed.
Lemma GV_le M n m X : n <= m -> GV M n X -> GV M m X.
Proof. intros H HX i Hi. eapply GC_le; [exact H|]. auto. Qed.
Definition cst (n : nat) : @C grade := ((0, n), (0, n)).
Lemma GC_0 n z : GC n z -> CRg 0 z (cst n).
Proof. auto. Qed.
Lemma CR_0 (z : cplx) z' n : CRg 0 z z' -> snd (fst z') <= n -> snd (snd z') <= n -> GC n z.
Proof. intros [H1 H2] K1 K2. unfold GR, expo in *. rewrite Nat.mul_0_r in *. split; [exact (small_le _ _ _ K1 H1)|exact (small_le _ _ _ K2 H2)]. Qed.

Lemma gc_0 n : GC n c0.
Proof. split; (eapply small_le; [|apply s_ofZ]); cbn; lia. Qed.
Lemma gc_add n m x y : GC n x -> GC m y -> GC (1 + Nat.max n m) (cadd x y).
Proof. intros Hx Hy. eapply CR_0; [apply (p_add (S 0) _ _ _ _ (GC_0 _ _ Hx) (GC_0 _ _ Hy))|cbn..]; lia. Qed.
Lemma gc_sub n m x y : GC n x -> GC m y -> GC (1 + Nat.max n m) (csub x y).
Proof. intros Hx Hy. eapply CR_0; [apply (p_sub (S 0) _ _ _ _ (GC_0 _ _ Hx) (GC_0 _ _ Hy))|cbn..]; lia. Qed.
Lemma gc_conj n x : GC n x -> GC n (cconj x).
Proof. intros Hx. eapply CR_0; [apply (p_conj (S 0) _ _ (GC_0 _ _ Hx))|cbn..]; lia. Qed.
Lemma gc_mul n m x y : GC n x -> GC m y -> GC (1 + (n + m)) (cmul x y).
Proof. intros Hx Hy. eapply CR_0; [apply (p_mul (S 0) _ _ _ _ (GC_0 _ _ Hx) (GC_0 _ _ Hy))|cbn..]; lia. Qed.
Lemma gc_mulT n m x y : GC n x -> GC m y -> GC (1 + (n + m)) (cmulT x y).
Proof. intros Hx Hy. eapply CR_0; [apply (p_mulT (S 0) _ _ _ _ (GC_0 _ _ Hx) (GC_0 _ _ Hy))|cbn..]; lia. Qed.
Lemma gc_scal n m (r : double) x : small n r -> GC m x -> GC (n + m) (@cscal Op r x).
Proof. intros Hr [Hx Hy]. split; cbn; apply s_mul; auto. Qed.
Lemma small_scale N mode : plen N -> small 0 (@scale_of Op N mode).
Proof. intros HN. pose proof (p_scale_of (S 0) N mode HN) as H. unfold GR, expo in H. destruct mode; exact H. Qed.
Lemma gc_scalepz N mode n x : (mode = scale_1 \/ plen N) -> GC n x -> GC n (scalepz N mode x).
Proof. intros H Hx. eapply CR_0; [apply (p_scalepz (S 0) N mode _ _ H (GC_0 _ _ Hx))|..]; destruct mode; cbn; lia. Qed.

(** a kernel whose growth in the arithmetic of grades is at most c *)
Lemma okg_small e c x (f : double) : okg c x = true -> GR e f x -> small (e + c) f.
Proof.
  unfold okg, GR, expo. intros H. apply andb_true_iff in H as [H1 H2]. apply Nat.leb_le in H1, H2. apply small_le. nia.
Qed.
Lemma okD_G e c l l' : okD c l' = true -> LRg e l l' -> Forall (GC (e + c)) l.
Proof.
  intros H HL. induction HL as [|z z' l l' [H1 H2] _ IH]; constructor; unfold okD in H; cbn [forallb] in H; apply andb_true_iff in H as [H3 H4]; auto.
  apply andb_true_iff in H3 as [H3 H5]. split; [exact (okg_small e c _ _ H3 H1)|exact (okg_small e c _ _ H5 H2)].
Qed.
Lemma LR_repeat e z0 l : (forall z, In z l -> CRg e z z0) -> LRg e l (repeat z0 (length l)).
Proof. induction l as [|z l IH]; intros H; cbn [length repeat]; constructor; [apply H; left; reflexivity|]. apply IH. intros; apply H; right; auto. Qed.
Lemma X_CR e z : GC e z -> CRg e z gX.
Proof. intros [H1 H2]. split; unfold GR, expo; cbn [fst snd gX]; (eapply small_le; [|eassumption]); lia. Qed.
Lemma W_CR e z : GC 1 z -> CRg e z gW.
Proof. intros [H1 H2]. split; assumption. Qed.
Lemma nth_G n l j : Forall (GC n) l -> GC n (nth j l c0).
Proof. intros H. revert j. induction H as [|z l Hz H IH]; intros [|j]; cbn [nth]; auto using gc_0. Qed.
Lemma kern_G e c (f : list cplx -> list cplx) fD lT lX : (forall v v', LRg e v v' -> LRg e (f v) (fD v')) ->
  (forall z, In z lT -> GC 1 z) -> (forall z, In z lX -> GC e z) -> okD c (fD (repeat gW (length lT) ++ repeat gX (length lX))) = true ->
  Forall (GC (e + c)) (f (lT ++ lX)).
Proof.
  intros Hf HT HX Hc. eapply okD_G; [exact Hc|]. apply Hf. apply p_app; apply LR_repeat; intros z Hz; [apply W_CR|apply X_CR]; auto.
Qed.
Lemma pass_G e c (f : list cplx -> list cplx) fD (tw : list nat) r (ri : nat -> nat) T X j : (forall v v', LRg e v v' -> LRg e (f v) (fD v')) ->
  (forall t, In t tw -> GC 1 (T t)) -> (forall i, i < r -> GC e (X (ri i))) -> okD c (fD (repeat gW (length tw) ++ repeat gX r)) = true ->
  GC (e + c) (nth j (f (map T tw ++ map (fun i => X (ri i)) (seq 0 r))) c0).
Proof.
  intros Hf HT HX Hc. apply nth_G. apply (kern_G e c f fD); auto.
  - intros z Hz. apply in_map_iff in Hz as (t & <- & Ht). auto.
  - intros z Hz. apply in_map_iff in Hz as (i & <- & Hi). apply in_seq in Hi. apply HX. lia.
  - rewrite !map_length, seq_length. exact Hc.
Qed.
Lemma idx3 r m s i : 0 < r -> 0 < s -> i < r * m * s -> i / s / r < m /\ i mod s < s /\ (i / s) mod r < r.
Proof.
  intros Hr Hs Hi. split; [|split; apply Nat.mod_upper_bound; lia]. apply Nat.div_lt_upper_bound; [lia|]. apply Nat.div_lt_upper_bound; [lia|]. nia.
Qed.
Lemma idx_in r m s p q j : p < m -> q < s -> j < r -> q + s * p + m * s * j < r * m * s.
Proof.
  intros Hp Hq Hj. assert (s * p + s <= s * m) by nia. assert (m * s * j + m * s <= m * s * r) by nia. nia.
Qed.
Lemma idx_in' r m s p q j : p < m -> q < s -> j < r -> q + r * (s * p) + s * j < r * m * s.
Proof.
  intros Hp Hq Hj. assert (s * j + s <= s * r) by nia. assert (r * s * p + r * s <= r * s * m) by nia. nia.
Qed.
Lemma dif_G r m s tw (f : list cplx -> list cplx) fD e c T X : 0 < r -> 0 < s -> (forall v v', LRg e v v' -> LRg e (f v) (fD v')) ->
  (forall p t, p < m -> In t (tw p) -> GC 1 (T t)) -> (forall p, okD c (fD (repeat gW (length (tw p)) ++ repeat gX r)) = true) ->
  GV (r * m * s) e X -> GV (r * m * s) (e + c) (dif_fun r m s tw f T X).
Proof.
  intros Hr Hs Hf HT Hc HX i Hi. destruct (idx3 r m s i Hr Hs Hi) as (Hp & Hq & _). unfold dif_fun, gfun, dif_dec. cbn [fst snd].
  apply (pass_G e c f fD (tw (i / s / r)) r (fun j => i mod s + s * (i / s / r) + m * s * j)); auto; [intros t; apply HT; exact Hp|].
  intros j Hj. apply HX. apply idx_in; auto.
Qed.
Lemma dit_G r m s tw (f : list cplx -> list cplx) fD e c T X : 0 < m -> 0 < s -> (forall v v', LRg e v v' -> LRg e (f v) (fD v')) ->
  (forall p t, p < m -> In t (tw p) -> GC 1 (T t)) -> (forall p, okD c (fD (repeat gW (length (tw p)) ++ repeat gX r)) = true) ->
  GV (r * m * s) e X -> GV (r * m * s) (e + c) (dit_fun r m s tw f T X).
Proof.
  intros Hm Hs Hf HT Hc HX i Hi. assert (Hp : (i / s) mod m < m) by (apply Nat.mod_upper_bound; lia). assert (Hq : i mod s < s) by (apply Nat.mod_upper_bound; lia).
  unfold dit_fun, gfun, dit_dec. cbn [fst snd].
  apply (pass_G e c f fD (tw ((i / s) mod m)) r (fun j => i mod s + r * (s * ((i / s) mod m)) + s * j)); auto; [intros t; apply HT; exact Hp|].
  intros j Hj. apply HX. apply idx_in'; auto.
Qed.

(** ** powers of two *)
Definition bits (a : alg) : nat := match a with DIF4 | DIT4 => 2 | DIF8 | DIT8 => 3 | _ => 4 end.
Lemma radix_bits a : radix a = 2 ^ bits a.
Proof. destruct a; reflexivity. Qed.
Lemma tw_len o a m s p : length (ktw o a m s p) = if o then 1 else radix a - 1.
Proof. unfold ktw, tw_o, tw_s. destruct o; [reflexivity|]. destruct (s =? 1); rewrite map_length, seq_length; reflexivity. Qed.
Lemma kf_ok o a inv s : okD (9 * bits a) (@kf grade o a inv s (repeat gW (if o then 1 else radix a - 1) ++ repeat gX (radix a))) = true.
Proof. unfold kf. destruct a, o, inv, (s =? 1); vm_compute; reflexivity. Qed.
Lemma ktw_lt o a m s p t : 0 < s -> p < m -> In t (ktw o a m s p) -> t < 2 * (radix a * m * s).
Proof.
  intros Hs Hp. assert (Hr : 4 <= radix a <= 16) by (destruct a; cbn; lia). unfold ktw, tw_o, tw_s. set (r := radix a) in *. clearbody r.
  assert (H1 : s * p + s <= s * m) by nia. assert (H2 : m * s <= r * m * s) by nia. assert (H3 : r * (s * p) + r * s <= r * m * s) by nia. destruct o.
  - intros [<-|[]]. lia.
  - destruct (Nat.eqb_spec s 1) as [->|Hs1]; intros H; apply in_map_iff in H as (k & <- & Hk); apply in_seq in Hk.
    + assert ((k - 1) * m + m <= r * m) by nia. lia.
    + assert (k < r * s) by nia. lia.
Qed.
Lemma cF_G o a inv m s e T X : 0 < m -> 0 < s -> GV (2 * (radix a * m * s)) 1 T -> GV (radix a * m * s) e X ->
  GV (radix a * m * s) (e + 9 * bits a) (PowKern.cF o a inv m s T X).
Proof.
  intros Hm Hs HT HX. unfold PowKern.cF.
  assert (HT' : forall p t, p < m -> In t (ktw o a m s p) -> GC 1 (T t)) by (intros p t Hp Ht; apply HT; eapply ktw_lt; eauto).
  assert (Hk : forall p, okD (9 * bits a) (@kf grade o a inv s (repeat gW (length (ktw o a m s p)) ++ repeat gX (radix a))) = true) by (intros p; rewrite tw_len; apply kf_ok).
  destruct (is_dit a); [apply (dit_G _ _ _ _ _ (@kf grade o a inv s))|apply (dif_G _ _ _ _ _ (@kf grade o a inv s))]; auto; try (intros; apply (kf_p (S e)); auto).
  destruct a; cbn; lia.
Qed.
Lemma ef_ok o a inv mode k s : k <= 4 -> okD (9 * k) (@ef grade o a inv mode (2 ^ k) s (repeat gX (2 ^ k))) = true.
Proof.
  intros Hk. unfold ef. do 5 (destruct k as [|k]; [destruct (is_dit a); unfold ef_dit, ef_dif; destruct (s =? 1), o, inv, mode; vm_compute; reflexivity|]). lia.
Qed.
Lemma eF_G o a inv mode k s e T X : k <= 4 -> 0 < s -> (mode = scale_1 \/ plen (2 ^ k * s)) -> GV (2 ^ k * s) e X ->
  GV (2 ^ k * s) (e + 9 * k) (PowKern.eF o a inv mode (2 ^ k) s T X).
Proof.
  intros Hk Hs HN HX. unfold PowKern.eF. assert (E : 2 ^ k * s = 2 ^ k * 1 * s) by lia. assert (P : 0 < 2 ^ k) by (apply Nat.neq_0_lt_0, Nat.pow_nonzero; lia).
  rewrite E in HX |- *. apply (dif_G _ _ _ _ _ (@ef grade o a inv mode (2 ^ k) s)); auto.
  - intros; apply (ef_p (S e)); auto.
  - intros p t _ [].
  - intros p. apply ef_ok; exact Hk.
Qed.

Lemma bits_lt a k : ~ 2 ^ k <= radix a -> bits a < k.
Proof. rewrite radix_bits. intros H. apply Nat.nle_gt. intros C. apply H. apply Nat.pow_le_mono_r; lia. Qed.
Lemma bits_le a k : 2 ^ k <= radix a -> k <= bits a.
Proof. rewrite radix_bits. intros H. apply Nat.nlt_ge. intros C. pose proof (Nat.pow_lt_mono_r 2 (bits a) k ltac:(lia) C). lia. Qed.
Lemma pow_ff_G o a inv mode : forall fuel k s e T X, 2 ^ k <= fuel -> 0 < s -> (mode = scale_1 \/ plen (2 ^ k * s)) ->
  GV (2 * (2 ^ k * s)) 1 T -> GV (2 ^ k * s) e X -> GV (2 ^ k * s) (e + 9 * k) (pow_ff o a inv mode fuel (2 ^ k) s T X).
Proof.
  assert (Hr : 4 <= radix a <= 16) by (destruct a; cbn; lia). assert (Hb : bits a <= 4) by (destruct a; cbn; lia).
  assert (Hdiv : forall k, bits a < k -> 2 ^ k / radix a = 2 ^ (k - bits a) /\ 2 ^ k = radix a * 2 ^ (k - bits a)).
  { intros k Hk. assert (E : 2 ^ k = radix a * 2 ^ (k - bits a)) by (rewrite radix_bits, <- Nat.pow_add_r; f_equal; lia). split; [|exact E].
    rewrite E, Nat.mul_comm. apply Nat.div_mul. lia. }
  unfold pow_ff. destruct (is_dit a); induction fuel as [|fuel IH]; intros k s e T X Hf Hs HN HT HX;
    (assert (P : forall j, 0 < 2 ^ j) by (intros j; apply Nat.neq_0_lt_0, Nat.pow_nonzero; lia)); try (specialize (P k); lia); cbn [dit_ff dif_ff];
    (destruct (Nat.leb_spec (2 ^ k) (radix a)) as [H|H]; [apply eF_G; auto; apply bits_le in H; lia|]);
    (assert (Hk : bits a < k) by (apply bits_lt; lia)); destruct (Hdiv k Hk) as [-> E].
  - assert (EM : radix a * 2 ^ (k - bits a) * s = 2 ^ k * s) by (rewrite E; lia).
    assert (EM2 : 2 ^ (k - bits a) * (radix a * s) = 2 ^ k * s) by (rewrite E; lia).
    replace (e + 9 * k) with (e + 9 * (k - bits a) + 9 * bits a) by lia. rewrite <- EM in HT |- *. apply cF_G; auto. rewrite EM.
    rewrite <- EM2. rewrite EM in HT. rewrite <- EM2 in HN, HT, HX. apply IH; auto; [|nia]. specialize (P (k - bits a)). nia.
  - assert (EM : radix a * 2 ^ (k - bits a) * s = 2 ^ k * s) by (rewrite E; lia).
    assert (EM2 : 2 ^ (k - bits a) * (radix a * s) = 2 ^ k * s) by (rewrite E; lia).
    replace (e + 9 * k) with (e + 9 * bits a + 9 * (k - bits a)) by lia.
    assert (HZ : GV (radix a * 2 ^ (k - bits a) * s) (e + 9 * bits a) (PowKern.cF o a inv (2 ^ (k - bits a)) s T X)) by (apply cF_G; auto; rewrite EM; auto).
    rewrite EM in HZ. rewrite <- EM2 in HN, HT, HZ |- *. apply IH; auto; [|nia]. specialize (P (k - bits a)). nia.
Qed.

(** tables *)
Lemma log32 n : (Z.of_nat n <= 2 ^ 33)%Z -> Z.to_nat (Z.log2_up (Z.abs (Z.of_nat n))) <= 33.
Proof.
  intros H. rewrite Z.abs_eq by lia. assert (Z.log2_up (Z.of_nat n) <= Z.log2_up (2 ^ 33))%Z by (apply Z.log2_up_le_mono; exact H).
  change (Z.log2_up (2 ^ 33)) with 33%Z in *. lia.
Qed.
Lemma trig_ok x : fst x = 0 -> snd x <= 1023 -> trig x = (0, 1).
Proof. intros H1 H2. unfold trig. rewrite H1. rewrite (proj2 (Nat.leb_le _ _) H2). reflexivity. Qed.
Lemma tw_val_G N k p : len31 N -> (Z.of_nat k <= 2 ^ 33)%Z -> (Z.of_nat p <= 2 ^ 33)%Z -> GC 1 (tw_val N k p).
Proof.
  intros HN Hk Hp. pose proof (tw_val_p (S 0) N k p HN) as H. apply log32 in Hk, Hp.
  assert (E : @tw_val grade N k p = gW).
  { unfold tw_val, expj, gW. cbn [scos ssin grade]. rewrite trig_ok; [reflexivity|reflexivity|]. cbn [smul sofZ grade gmul snd]. unfold theta_of. cbn. lia. }
  rewrite E in H. exact H.
Qed.
Lemma Wr1_G N p : len31 N -> (Z.of_nat p <= 2 ^ 33)%Z -> GC 1 (Wr1_T N p).
Proof.
  intros HN Hp. pose proof (Wr1_T_p (S 0) N HN p) as H. apply log32 in Hp.
  assert (E : @Wr1_T grade N p = gW).
  { unfold Wr1_T, expj, gW. cbn [scos ssin grade]. rewrite trig_ok; [reflexivity|reflexivity|]. cbn [smul sofZ grade gmul snd]. unfold theta_of. cbn. lia. }
  rewrite E in H. exact H.
Qed.
Lemma mixed_T_G N p : len31 N -> (Z.of_nat p <= 2 ^ 33)%Z -> GC 1 (mixed_T N p).
Proof.
  intros HN Hp. pose proof (mixed_T_p (S 0) N HN p) as H. apply log32 in Hp.
  assert (E : @mixed_T grade N p = gW).
  { unfold mixed_T, gW. cbv zeta. cbn [scos ssin sneg grade mkC]. rewrite trig_ok; [reflexivity|reflexivity|]. cbn. lia. }
  rewrite E in H. exact H.
Qed.
Lemma Wt_G r N : 0 < r -> len31 N -> GV (2 * N) 1 (Wt_T r N).
Proof.
  intros Hr HN i Hi. pose proof HN as [H0 H1]. unfold Wt_T.
  assert (B : (Z.of_nat (2 * N) <= 2 ^ 32)%Z) by (change (2 ^ 32)%Z with (2 * 2 ^ 31)%Z; lia).
  assert (B2 : forall x, x <= 2 * N + 1 -> (Z.of_nat x <= 2 ^ 33)%Z) by (intros x Hx; change (2 ^ 33)%Z with (2 * 2 ^ 32)%Z; lia).
  destruct (Nat.ltb_spec i N).
  - apply tw_val_G; [exact HN| |]; apply B2.
    + destruct (Nat.eq_dec (N / r) 0) as [E|E]; [rewrite E; cbn; lia|]. pose proof (Nat.div_le_upper_bound i (N / r) i E ltac:(nia)). lia.
    + destruct (Nat.eq_dec (N / r) 0) as [E|E]; [rewrite E; cbn; lia|]. pose proof (Nat.mod_le i (N / r) E). lia.
  - apply tw_val_G; [exact HN| |]; apply B2.
    + pose proof (Nat.mod_le (i - N) r ltac:(lia)). lia.
    + pose proof (Nat.div_le_upper_bound (i - N) r (i - N) ltac:(lia) ltac:(nia)). lia.
Qed.
Lemma up33 N x : len31 N -> x < 2 * N -> (Z.of_nat x <= 2 ^ 33)%Z.
Proof. intros [H0 H1] Hx. assert ((2 ^ 33)%Z = (4 * 2 ^ 31)%Z) by reflexivity. lia. Qed.
Lemma pow_T_G a N : len31 N -> GV (2 * N) 1 (pow_T a N).
Proof.
  intros HN. unfold pow_T. destruct (N <=? radix a); [intros i _; apply gc_0|]. destruct (pow_par a N).
  - intros i Hi. apply Wr1_G; [exact HN|]. eapply up33; eauto.
  - apply Wt_G; [destruct a; cbn; lia|exact HN].
Qed.
Lemma pow_F_G a n k e X : n <= 24 -> GV (2 ^ n) e X -> GV (2 ^ n) (e + 9 * n) (pow_F a n k X).
Proof.
  intros Hn HX. unfold pow_F. cbv zeta. rewrite <- (Nat.mul_1_r (2 ^ n)) in HX |- * at 1. apply pow_ff_G; auto.
  - right. rewrite Nat.mul_1_r. apply plen_2; auto.
  - rewrite Nat.mul_1_r. apply pow_T_G, len31_2; auto.
Qed.

(** ** the six-step transform *)
Lemma cell_lt n i : i < n * n -> i / n < n /\ i mod n < n /\ cell2 n (i / n) (i mod n) < n * n.
Proof.
  intros Hi. assert (Hn : 0 < n) by nia. assert (H1 : i / n < n) by (apply Nat.div_lt_upper_bound; lia). assert (H2 : i mod n < n) by (apply Nat.mod_upper_bound; lia).
  split; [exact H1|]. split; [exact H2|]. apply cell2_lt; auto.
Qed.
Lemma trF_G n e X : GV (n * n) e X -> GV (n * n) e (trF n X).
Proof. intros HX i Hi. unfold trF. apply HX. apply cell_lt, Hi. Qed.
Lemma rowsF_G n h e e' F X : (forall Y, GV n e Y -> GV n e' (F Y)) -> GV (n * h) e X -> GV (n * h) e' (rowsF n F X).
Proof.
  intros HF HX i Hi. assert (Hn : 0 < n) by nia. unfold rowsF. apply HF; [|apply Nat.mod_upper_bound; lia]. intros j Hj. apply HX.
  assert (i / n < h) by (apply Nat.div_lt_upper_bound; lia). nia.
Qed.
Lemma wsel_val n m r c : n = 2 * m -> 0 < m -> n <= 2 ^ 12 -> r < n -> c < n ->
  exists a b, a < n /\ b < n /\ @wnxn_T Op n (wsel (n / 2) r c) = tw_val (n * n) a b.
Proof.
  intros Hn Hm H12 Hr Hc. assert (E2 : n / 2 = m) by (rewrite Hn; apply half_2). rewrite E2.
  destruct (bit_cases r) as (e & He & Er). destruct (bit_cases c) as (d & Hd & Ec).
  set (u := r / 2) in *. set (v := c / 2) in *. clearbody u v.
  assert (Hd4 : forall a b, a < 2 -> b < 2 -> (a + 2 * b) mod 2 = a /\ (a + 2 * b) / 2 = b) by (intros a b Ha Hb'; split; [apply mod_lin|apply div_lin]; auto).
  destruct (le_lt_dec u v) as [H|H].
  - exists c, r. split; [exact Hc|]. split; [exact Hr|].
    rewrite Er, Ec. rewrite wsel_up by auto. rewrite <- Nat.add_assoc. rewrite (wnxn_T_at n m Hn Hm H12 u v (d + 2 * e)) by lia.
    destruct (Hd4 d e Hd He) as [-> ->]. reflexivity.
  - exists r, c. split; [exact Hr|]. split; [exact Hc|].
    rewrite Er, Ec. rewrite (wsel_lo m v u e d) by auto. rewrite <- Nat.add_assoc. rewrite (wnxn_T_at n m Hn Hm H12 v u (e + 2 * d)) by lia.
    destruct (Hd4 e d He Hd) as [-> ->]. reflexivity.
Qed.
Section Six.
Variables (n m k : nat).
Hypothesis Hn : n = 2 * m.
Hypothesis Hm : 0 < m.
Hypothesis H12 : n <= 2 ^ 12.
Hypothesis Hk : n = 2 ^ k.
Lemma k12 : k <= 12.
Proof. apply (Nat.pow_le_mono_r_iff 2); [lia|]. rewrite <- Hk. exact H12. Qed.
Lemma nn31 : len31 (n * n).
Proof. rewrite Hk, <- Nat.pow_add_r. apply len31_2. pose proof k12. lia. Qed.
Lemma mulF_G inv N mode e X : (mode = scale_1 \/ plen N) -> GV (n * n) e X -> GV (n * n) (e + 2) (mulF inv N mode n (wnxn_T n) X).
Proof.
  intros HN HX i Hi. destruct (cell_lt n i Hi) as (H1 & H2 & H3). unfold mulF, sw.
  destruct (wsel_val n m (i mod n) (i / n) Hn Hm H12 H2 H1) as (a & b & Ha & Hb & ->).
  assert (HT : GC 1 (@tw_val Op (n * n) a b)) by (apply tw_val_G; [apply nn31|apply (up33 (n * n)); [apply nn31|nia]|apply (up33 (n * n)); [apply nn31|nia]]).
  eapply GC_le; [|apply gc_mul; [apply (gc_scalepz N mode 1); [exact HN|]|apply HX; exact H3]]; [lia|]. destruct inv; [apply gc_conj|]; exact HT.
Qed.
Lemma row_G inv e X : GV n e X -> GV n (e + 9 * k) (rowT inv n (Wt_T 8 n) X).
Proof.
  intros HX. pose proof k12 as H. unfold rowT. rewrite <- (Nat.mul_1_r n) in HX |- * at 1. rewrite Hk in HX |- *. apply pow_ff_G; auto.
  rewrite Nat.mul_1_r. apply Wt_G; [lia|]. apply len31_2. lia.
Qed.
Lemma sixF_G inv N mode e X : (mode = scale_1 \/ plen N) -> GV (n * n) e X ->
  GV (n * n) (e + 9 * k + 2 + 9 * k) (sixF inv N mode n (wnxn_T n) (Wt_T 8 n) X).
Proof.
  intros HN HX. unfold sixF. apply trF_G. apply (rowsF_G n n (e + 9 * k + 2)); [intros; apply row_G; auto|]. apply mulF_G; auto.
  apply (rowsF_G n n e); [intros; apply row_G; auto|]. apply trF_G, HX.
Qed.
Lemma eight_ok inv N mode : okD 18 (@eight_fn grade inv N mode (gW :: repeat gX 8)) = true.
Proof. destruct inv, mode; vm_compute; reflexivity. Qed.
Lemma eightF_G inv N mode e X : N = 8 * (n * n) -> (mode = scale_1 \/ plen N) -> len31 N -> GV N e X ->
  GV N (e + 18 + 9 * k + 2 + 9 * k) (eightF inv N mode n (Wr1_T N) (wnxn_T n) (Wt_T 8 n) X).
Proof.
  intros EN HN HL HX. unfold eightF. cbv zeta. set (N1 := n * n) in *. assert (P : 0 < N1) by (unfold N1; nia).
  assert (HB : GV (N1 * 8) (e + 18) (eightB inv N mode N1 (Wr1_T N) X)).
  { intros i Hi. unfold eightB. assert (Hi' : i mod N1 < N1) by (apply Nat.mod_upper_bound; lia). apply nth_G.
    apply (kern_G e 18 (eight_fn inv N mode) (eight_fn inv N mode) [Wr1_T N (i mod N1)]).
    - intros; apply (eight_p (S e)); auto.
    - intros z [<-|[]]. apply Wr1_G; [exact HL|]. apply (up33 N); [exact HL|]. lia.
    - intros z Hz. apply in_map_iff in Hz as (j & <- & Hj). apply in_seq in Hj. apply HX. rewrite EN. nia.
    - rewrite map_length, seq_length. apply eight_ok. }
  intros i Hi. unfold eightT.
  apply (rowsF_G N1 8 (e + 18) (e + 18 + 9 * k + 2 + 9 * k) _ _ (fun Y HY => sixF_G inv N1 scale_1 (e + 18) Y (or_introl eq_refl) HY) HB).
  assert (i / 8 < N1) by (apply Nat.div_lt_upper_bound; lia). assert (i mod 8 < 8) by (apply Nat.mod_upper_bound; lia). nia.
Qed.
End Six.
Lemma six_F_G n k e X : 1 <= n <= 24 -> GV (2 ^ n) e X -> GV (2 ^ n) (e + 10 * n) (six_F n k X).
Proof.
  intros Hn HX. unfold six_F. cbv zeta. pose proof (plen_2 n ltac:(lia)) as HP. pose proof (len31_2 n ltac:(lia)) as HL.
  destruct (Nat.leb_spec n 5) as [H5|H5]; [|destruct (Nat.odd n) eqn:Eo].
  - eapply GV_le; [|rewrite <- (Nat.mul_1_r (2 ^ n)) in HX |- * at 1; apply (pow_ff_G _ _ _ _ _ _ _ e); auto]; [lia| |].
    + right. rewrite Nat.mul_1_r. exact HP.
    + rewrite Nat.mul_1_r. apply Wt_G; [lia|exact HL].
  - apply Nat.odd_spec in Eo as [h Eh]. assert (Ed : n / 2 = h) by (symmetry; apply (Nat.div_unique n 2 h 1); lia). rewrite Ed.
    assert (Eh1 : 2 ^ (h - 1) = 2 * 2 ^ (h - 2)) by (rewrite <- Nat.pow_succ_r'; f_equal; lia).
    eapply GV_le; [|apply (fun H1 H2 => eightF_G _ (2 ^ (h - 2)) (h - 1) Eh1 H1 H2 eq_refl _ _ _ e); auto]; [clear - Eh H5; lia| | |].
    + apply Nat.neq_0_lt_0, Nat.pow_nonzero; lia.
    + apply Nat.pow_le_mono_r; lia.
    + rewrite <- Nat.pow_add_r. change 8 with (2 ^ 3). rewrite <- Nat.pow_add_r. f_equal. lia.
  - assert (Ev : Nat.even n = true) by (rewrite <- Nat.negb_odd, Eo; reflexivity). apply Nat.even_spec in Ev as [h Eh].
    assert (Ed : n / 2 = h) by (symmetry; apply (Nat.div_unique n 2 h 0); lia). rewrite Ed.
    assert (Eh1 : 2 ^ h = 2 * 2 ^ (h - 1)) by (rewrite <- Nat.pow_succ_r'; f_equal; lia).
    assert (EN : 2 ^ n = 2 ^ h * 2 ^ h) by (rewrite <- Nat.pow_add_r; f_equal; lia).
    eapply GV_le; [|rewrite EN at 1; apply (fun H1 H2 => sixF_G _ (2 ^ (h - 1)) h Eh1 H1 H2 eq_refl _ _ _ e); auto]; [lia| | |].
    + apply Nat.neq_0_lt_0, Nat.pow_nonzero; lia.
    + apply Nat.pow_le_mono_r; lia.
    + rewrite <- EN. exact HX.
Qed.

(** ** mixed radix *)
(** a sum of J products: at most J times the bound on one, and J * 2^n is a binary64 number *)
Lemma dbl_J J n : (Z.of_nat J < 2 ^ 53)%Z -> generic_format radix2 fx (INR J * p2 n).
Proof.
  intros HJ. rewrite INR_IZR_INZ. change (IZR (Z.of_nat J) * p2 n)%R with (F2R (Float radix2 (Z.of_nat J) (Z.of_nat n))).
  apply generic_format_FLT. exists (Float radix2 (Z.of_nat J) (Z.of_nat n)); cbn; [reflexivity|rewrite Z.abs_eq; lia|lia].
Qed.
Lemma J_bound J n : 0 < J -> n + Nat.log2_up J <= 1023 -> (INR J * p2 n <= p2 (n + Nat.log2_up J))%R.
Proof.
  intros HJ _. rewrite p2_add, Rmult_comm. apply Rmult_le_compat_l; [apply Rlt_le, p2_pos|].
  assert (H : J <= 2 ^ Nat.log2_up J) by (destruct (Nat.le_gt_cases J 1) as [H1|H1]; [assert (J = 1) as -> by lia; cbn; lia|apply Nat.log2_up_spec; exact H1]).
  apply le_INR in H. eapply Rle_trans; [exact H|]. rewrite <- IZR_Zpower by lia. rewrite INR_IZR_INZ, Nat2Z.inj_pow. apply Rle_refl.
Qed.
Definition within_J (J n : nat) (f : double) : Prop := is_finite f = true /\ (Rabs (B2R f) <= INR J * p2 n)%R.
Lemma add_J J n x y : (Z.of_nat (J + 1) < 2 ^ 53)%Z -> n + Nat.log2_up (J + 1) <= 1023 -> within_J J n x -> small n y -> within_J (J + 1) n (add x y).
Proof.
  intros HJ Hn [Fx Bx] Hy. destruct (Hy ltac:(lia)) as [Fy By]. pose proof (add_ok x y Fx Fy) as H.
  assert (Hs : (Rabs (B2R x + B2R y) <= INR (J + 1) * p2 n)%R).
  { rewrite plus_INR. cbn [INR]. rewrite Rmult_plus_distr_r, Rmult_1_l. eapply Rle_trans; [apply Rabs_triang|]. lra. }
  assert (Hr : (Rabs (PropAccuracy.rn (B2R x + B2R y)) <= INR (J + 1) * p2 n)%R).
  { apply abs_round_le_generic; [apply FLT_exp_valid; reflexivity|apply valid_rnd_N|apply dbl_J; exact HJ|exact Hs]. }
  unfold op_ok in H. destruct H as [[F E]|[_ Hb]]; [split; [exact F|rewrite E; exact Hr]|]. exfalso.
  pose proof (J_bound (J + 1) n ltac:(lia) Hn). assert (p2 (n + Nat.log2_up (J + 1)) < bpow radix2 1024)%R by (apply bpow_lt; lia). lra.
Qed.
Lemma any_sum_J k i e (A Wv : nat -> cplx) J : 0 < k -> (Z.of_nat J < 2 ^ 53)%Z -> e + 2 + Nat.log2_up J <= 1023 ->
  (forall j, j < J -> GC e (A j)) -> (forall t, t < k -> GC 1 (Wv t)) ->
  within_J J (e + 2) (fst (any_sum k i A Wv J)) /\ within_J J (e + 2) (snd (any_sum k i A Wv J)).
Proof.
  intros Hk. induction J as [|J IH]; intros HJ He HA HW.
  - assert (Z0 : within_J 0 (e + 2) (dbl 0 0)).
    { destruct (s_ofZ 0 ltac:(cbn; lia)) as [F _]. split; [exact F|]. cbn [INR]. rewrite Rmult_0_l. destruct (dbl_exact 0 0 ltac:(reflexivity) ltac:(lia) ltac:(lia)) as [_ ->].
      rewrite Rmult_0_l, Rabs_R0. lra. }
    split; exact Z0.
  - assert (Hl : Nat.log2_up J <= Nat.log2_up (Datatypes.S J)) by (apply Nat.log2_up_le_mono; lia).
    destruct IH as [I1 I2]; auto; [lia|lia|]. cbn [any_sum].
    assert (Hp : GC (e + 2) (cmul (A J) (Wv ((i * J) mod k)))).
    { eapply GC_le; [|apply gc_mul; [apply HA; lia|apply HW, Nat.mod_upper_bound; lia]]. lia. }
    destruct Hp as [P1 P2]. replace (Datatypes.S J) with (J + 1) in * by lia. split; apply add_J; auto.
Qed.
Lemma any_sum_G k i e (A Wv : nat -> cplx) J : 0 < k -> 0 < J -> (Z.of_nat J <= 2 ^ 31)%Z -> (forall j, j < J -> GC e (A j)) -> (forall t, t < k -> GC 1 (Wv t)) ->
  GC (e + 2 + Nat.log2_up J) (any_sum k i A Wv J).
Proof.
  intros Hk HJ H31 HA HW. assert (H53 : (Z.of_nat J < 2 ^ 53)%Z) by (eapply Z.le_lt_trans; [exact H31|reflexivity]).
  split; intros He; destruct (any_sum_J k i e A Wv J Hk H53 He HA HW) as [[F1 B1] [F2 B2]]; (split; [assumption|]);
    (eapply Rle_trans; [eassumption|apply J_bound; auto]).
Qed.
Lemma any_fun_G k m s len2 wa tw2 (f : cplx -> cplx -> cplx) c e T X : 0 < k -> 0 < s -> (Z.of_nat k <= 2 ^ 31)%Z ->
  (forall i p, length (tw2 i p) = len2) -> len2 <= 1 ->
  (forall n x y, GC n x -> (0 < len2 -> GC 1 y) -> GC (n + c) (f x y)) ->
  (forall t, t < k -> GC 1 (T (wa t))) -> (forall i p t, i < k -> p < m -> In t (tw2 i p) -> GC 1 (T t)) -> GV (k * m * s) e X ->
  GV (k * m * s) (e + 2 + Nat.log2_up k + c) (any_fun k m s len2 wa tw2 f T X).
Proof.
  intros Hk Hs H31 Hl Hl1 Hf HT HT2 HX i Hi. destruct (idx3 k m s i Hk Hs Hi) as (Hp & Hq & Hj). unfold any_fun, gfun, any_dec. cbn [fst snd].
  unfold any_f, any_tw. cbn [nth]. set (p := i / s / k) in *. set (j := (i / s) mod k) in *. set (q := i mod s) in *.
  set (vs := map T (map wa (seq 0 k) ++ tw2 j p) ++ map (fun i0 => X (q + s * p + m * s * i0)) (seq 0 k)).
  assert (E1 : forall t, t < k -> nth t vs c0 = T (wa t)).
  { intros t Ht. unfold vs. rewrite app_nth1 by (rewrite map_length, app_length, map_length, seq_length; lia).
    rewrite map_app, app_nth1 by (rewrite !map_length, seq_length; lia). rewrite map_map. apply (nth_map_seq (fun x => T (wa x))). exact Ht. }
  assert (E2 : forall t, t < k -> nth (k + len2 + t) vs c0 = X (q + s * p + m * s * t)).
  { intros t Ht. unfold vs. assert (El : length (map T (map wa (seq 0 k) ++ tw2 j p)) = k + len2) by (rewrite map_length, app_length, map_length, seq_length, Hl; reflexivity).
    rewrite app_nth2 by lia. rewrite El. replace (k + len2 + t - (k + len2)) with t by lia. apply (nth_map_seq (fun x => X (q + s * p + m * s * x))). exact Ht. }
  apply Hf.
  - apply any_sum_G; auto.
    + intros t Ht. rewrite E2 by exact Ht. apply HX. apply idx_in; auto.
    + intros t Ht. rewrite E1 by exact Ht. auto.
  - intros Hpos. assert (G : Forall (GC 1) (firstn (k + len2) vs)).
    { unfold vs. rewrite firstn_app. assert (El : length (map T (map wa (seq 0 k) ++ tw2 j p)) = k + len2) by (rewrite map_length, app_length, map_length, seq_length, Hl; reflexivity).
      rewrite El, Nat.sub_diag. cbn [firstn]. rewrite app_nil_r. rewrite firstn_all2 by lia. apply Forall_forall. intros z Hz.
      apply in_map_iff in Hz as (t & <- & Ht). apply in_app_iff in Ht as [Ht|Ht]; [apply in_map_iff in Ht as (u & <- & Hu); apply in_seq in Hu; apply HT; lia|].
      apply (HT2 j p); auto. }
    assert (len2 = 1) as -> by lia. assert (Ek : nth k vs c0 = nth k (firstn (k + 1) vs) c0).
    { rewrite <- (firstn_skipn (k + 1) vs) at 1. apply app_nth1. rewrite firstn_length. unfold vs. rewrite app_length, !map_length, app_length, map_length, seq_length, Hl. lia. }
    rewrite Ek. apply nth_G, G.
Qed.
Lemma wa_lt inv k m s t : t < k -> a_wa inv (m * k * s) (m * s) t < Datatypes.S (k * m * s).
Proof. intros Ht. unfold a_wa. assert (m * s * t <= m * s * k) by (apply Nat.mul_le_mono_l; lia). destruct inv; lia. Qed.
Lemma aeF_G inv k s e T X : 2 <= k -> 0 < s -> (Z.of_nat k <= 2 ^ 31)%Z -> GV (Datatypes.S (k * s)) 1 T -> GV (k * s) e X ->
  GV (k * s) (e + 2 + Nat.log2_up k) (aeF inv k s T X).
Proof.
  intros Hk Hs H31 HT HX. unfold aeF. replace (k * s) with (k * 1 * s) in HX |- * at 1 by lia. rewrite <- (Nat.add_0_r (e + 2 + Nat.log2_up k)).
  apply any_fun_G; auto; try lia.
  - intros n x y Hx _. rewrite Nat.add_0_r. exact Hx.
  - intros t Ht. apply HT. pose proof (wa_lt inv k 1 s t Ht) as H. replace (1 * k * s) with (k * s) in H by lia. replace (1 * s) with s in H by lia.
    replace (k * 1 * s) with (k * s) in H by lia. exact H.
  - intros i p t _ _ [].
Qed.
Lemma acF_G inv k m s e T X : 2 <= k -> 0 < m -> 0 < s -> (Z.of_nat k <= 2 ^ 31)%Z -> GV (Datatypes.S (k * m * s)) 1 T -> GV (k * m * s) e X ->
  GV (k * m * s) (e + 4 + Nat.log2_up k) (acF inv k m s T X).
Proof.
  intros Hk Hm Hs H31 HT HX. unfold acF. replace (e + 4 + Nat.log2_up k) with (e + 2 + Nat.log2_up k + 2) by lia.
  apply any_fun_G; auto; try lia.
  - intros n x y Hx Hy. eapply GC_le; [|apply gc_mul; [exact Hx|apply Hy; lia]]. lia.
  - intros t Ht. apply HT. apply wa_lt; exact Ht.
  - intros i p t Hi Hp [<-|[]]. apply HT. unfold a_w2. assert (i * (s * p) <= k * (s * m)) by (apply Nat.mul_le_mono; nia). destruct inv; lia.
Qed.
Lemma find_factor_div fuel : forall k n d, 3 <= k -> find_factor fuel k n = Some d -> d = n \/ (3 <= d /\ n mod d = 0).
Proof.
  induction fuel as [|fuel IH]; intros k n d Hk; cbn [find_factor]; [discriminate|].
  destruct (Nat.eqb_spec (n mod k) 0) as [E|E]; [intros [= <-]; right; auto|]. destruct (Lanes.mul_ok k k); [|discriminate].
  destruct (n <? k * k); [intros [= <-]; left; reflexivity|]. apply IH. lia.
Qed.
Lemma log_up k : 2 <= k -> Nat.log2_up k <= Nat.log2 k + 1.
Proof. intros H. rewrite Nat.add_1_r. apply Nat.le_log2_up_succ_log2. Qed.
Lemma log_pos k : 2 <= k -> 1 <= Nat.log2 k.
Proof. intros H. apply Nat.log2_le_pow2; [lia|]. change (2 ^ 1) with 2. lia. Qed.
Lemma log_div k m : 0 < k -> 0 < m -> Nat.log2 k + Nat.log2 m <= Nat.log2 (k * m).
Proof. intros. apply Nat.log2_mul_below; lia. Qed.
Lemma quot_ge k n : k <> n -> n mod k = 0 -> 2 <= k -> 2 <= n -> n = k * (n / k) /\ 2 <= n / k.
Proof.
  intros Hne E Hk Hn. pose proof (Nat.div_mod n k ltac:(lia)) as H. rewrite E, Nat.add_0_r in H. split; [exact H|].
  destruct (n / k) as [|[|q]]; lia.
Qed.
Lemma any_ff_G inv : forall fuel r n s e T X, 3 <= r -> 2 <= n -> 0 < s -> (Z.of_nat (n * s) <= 2 ^ 31)%Z -> GV (Datatypes.S (n * s)) 1 T -> GV (n * s) e X ->
  GV (n * s) (e + 10 * Nat.log2 n) (any_ff (aeF inv) (acF inv) fuel r n s T X).
Proof.
  induction fuel as [|fuel IH]; intros r n s e T X Hr Hn Hs H31 HT HX; cbn [any_ff]; [eapply GV_le; [|exact HX]; lia|].
  destruct (find_factor n r n) as [k|] eqn:Ek; [|eapply GV_le; [|exact HX]; lia]. apply find_factor_div in Ek; [|exact Hr].
  pose proof (log_pos n Hn) as Hl. destruct (Nat.eqb_spec k n) as [->|Hne].
  - pose proof (log_up n Hn). eapply GV_le; [|apply (aeF_G inv n s e); auto; nia]. lia.
  - destruct Ek as [Ek|[Hk E]]; [congruence|]. destruct (quot_ge k n Hne E ltac:(lia) Hn) as [En Hm]. set (m := n / k) in *. clearbody m.
    pose proof (log_up k ltac:(lia)). pose proof (log_pos k ltac:(lia)). pose proof (log_div k m ltac:(lia) ltac:(lia)) as Hld. rewrite <- En in Hld.
    assert (EM : k * m * s = n * s) by (rewrite En; reflexivity). assert (EM2 : m * (k * s) = n * s) by (rewrite En; lia).
    assert (Hks : k <= n * s) by (rewrite En; nia). assert (Hk31 : (Z.of_nat k <= 2 ^ 31)%Z) by lia.
    assert (HZ : GV (k * m * s) (e + 4 + Nat.log2_up k) (acF inv k m s T X)) by (apply acF_G; [lia|lia|lia|exact Hk31|rewrite EM; exact HT|rewrite EM; exact HX]).
    rewrite EM in HZ. rewrite <- EM2 in HZ, HT, H31 |- *. eapply GV_le; [|apply (IH k m (k * s) (e + 4 + Nat.log2_up k)); auto; nia]. lia.
Qed.
Lemma kf_mixed_ok inv r m s p : MixedDrive.radix r -> okD (10 * Nat.log2 r) (@k_f grade inv r s (repeat gW (length (k_tw inv r m s p)) ++ repeat gX r)) = true.
Proof.
  intros Hr. unfold k_f, MixedStage.cf, k_tw, ctw, stw. destruct Hr as [-> | [-> | [-> | [-> | ->]]]]; cbn [is2]; destruct (2 <=? s), inv; vm_compute; reflexivity.
Qed.
Lemma ke_mixed_ok inv r s : MixedDrive.radix r -> okD (10 * Nat.log2 r) (@k_ef grade inv r (repeat gW (length (k_etw inv r s)) ++ repeat gX r)) = true.
Proof. intros Hr. destruct Hr as [-> | [-> | [-> | [-> | ->]]]]; destruct inv; vm_compute; reflexivity. Qed.
Lemma mixed_ff_G inv : forall fuel n s e T X, 2 <= n -> 0 < s -> (Z.of_nat (n * s) <= 2 ^ 31)%Z -> GV (Datatypes.S (n * s)) 1 T -> GV (n * s) e X ->
  GV (n * s) (e + 10 * Nat.log2 n) (mixed_ff inv fuel n s T X).
Proof.
  unfold mixed_ff. induction fuel as [|fuel IH]; intros n s e T X Hn Hs H31 HT HX; cbn [fft_ff]; [eapply GV_le; [|exact HX]; lia|].
  destruct (n * s <? 2); [eapply GV_le; [|exact HX]; lia|].
  assert (HS : forall r, MixedDrive.radix r -> n mod r = 0 ->
    GV (n * s) (e + 10 * Nat.log2 n) (step_ff (MixedRun.eF inv) (MixedRun.cF inv) (fft_ff (MixedRun.eF inv) (MixedRun.cF inv) (aeF inv) (acF inv) fuel) r n s T X)).
  { intros r Hr E. assert (Hr2 : 2 <= r) by (destruct Hr as [-> | [-> | [-> | [-> | ->]]]]; lia). unfold step_ff. destruct (Nat.eqb_spec n r) as [->|Hne].
    - unfold MixedRun.eF. replace (r * s) with (r * 1 * s) in HX |- * by lia. apply (dif_G _ _ _ _ _ (@k_ef grade inv r)); auto; try lia.
      + intros; apply (k_ef_p (S e)); auto.
      + intros p t _ Ht. apply HT. apply k_etw_lt in Ht; auto.
      + intros p. apply ke_mixed_ok; exact Hr.
    - destruct (quot_ge r n (not_eq_sym Hne) E Hr2 Hn) as [En Hm]. set (m := n / r) in *. clearbody m.
      pose proof (log_div r m ltac:(lia) ltac:(lia)) as Hld. rewrite <- En in Hld.
      assert (EM : r * m * s = n * s) by (rewrite En; reflexivity). assert (EM2 : m * (r * s) = n * s) by (rewrite En; lia).
      assert (HZ : GV (r * m * s) (e + 10 * Nat.log2 r) (MixedRun.cF inv r m s T X)).
      { unfold MixedRun.cF. apply (dif_G _ _ _ _ _ (@k_f grade inv r s)); auto; try lia.
        - intros; apply (k_f_p (S e)); auto.
        - intros p t Hp Ht. apply HT. rewrite <- EM. eapply k_tw_lt; eauto.
        - intros p. apply kf_mixed_ok; exact Hr.
        - rewrite EM; exact HX. }
      rewrite EM in HZ. rewrite <- EM2 in HZ, HT, H31 |- *. eapply GV_le; [|apply (IH m (r * s) (e + 10 * Nat.log2 r)); auto; nia]. lia. }
  destruct (Nat.eqb_spec (n mod 8) 0); [apply HS; auto; unfold MixedDrive.radix; auto|]. destruct (Nat.eqb_spec (n mod 4) 0); [apply HS; auto; unfold MixedDrive.radix; auto|].
  destruct (Nat.eqb_spec (n mod 2) 0); [apply HS; auto; unfold MixedDrive.radix; auto|]. destruct (Nat.eqb_spec (n mod 5) 0); [apply HS; auto; unfold MixedDrive.radix; auto|].
  destruct (Nat.eqb_spec (n mod 3) 0); [apply HS; auto; unfold MixedDrive.radix; auto 6|]. apply any_ff_G; auto; lia.
Qed.
Lemma mixed_F_G N k e X : 2 <= N -> len31 N -> GV N e X -> GV N (e + 10 * Nat.log2 N) (mixed_F N k X).
Proof.
  intros H2 HN HX. unfold mixed_F. cbv zeta.
  assert (HZ : GV N (e + 10 * Nat.log2 N) (mixed_ff (meth_inv k) (Datatypes.S N) N 1 (mixed_T N) X)).
  { rewrite <- (Nat.mul_1_r N) in HX |- * at 1. apply mixed_ff_G; auto; rewrite Nat.mul_1_r; [apply HN|].
    intros i Hi. apply mixed_T_G; [exact HN|]. apply (up33 N); [exact HN|]. lia. }
  assert (Hc : small 0 (@sdiv Op s1 (sofZ (Z.of_nat N)))) by exact (coef_p (S 0) N HN).
  assert (Hq : small 0 (@ssqrt Op (sdiv s1 (sofZ (Z.of_nat N))))) by exact (si_sqrt _ _ _ _ (S 0) _ HN).
  destruct k; cbn [mixed_coef]; try exact HZ; intros i Hi; apply (gc_scal 0); auto.
Qed.

(** ** ComplexFFT *)
Theorem fft0_F_G N k e X : valid_length N -> GV N e X -> GV N (e + 10 * Nat.log2 N) (fft0_F N k X).
Proof.
  intros HN HX. unfold fft0_F. destruct (select_ok N) as (g & -> & Hg); [destruct HN; lia|].
  destruct Hg as [a n -> Hn|n -> Hn|]; cbn [engine_F]; rewrite ?Nat.log2_pow2 by lia.
  - eapply GV_le; [|apply pow_F_G; [lia|exact HX]]. lia.
  - apply six_F_G; [lia|exact HX].
  - apply mixed_F_G; [apply HN|apply valid_31; exact HN|exact HX].
Qed.

(** ** RealFFT *)
Lemma ilast_G n es : forall us e z, Forall (GC n) us -> ilast es us e = Some z -> GC n z.
Proof.
  induction es as [|w es IH]; intros us e z H; cbn [ilast]; [destruct us; discriminate|].
  destruct H as [|u l Hu Hl]; [discriminate|]. destruct (ilast es l e) as [v|] eqn:Ev; [intros [= <-]; exact (IH l e v Hl Ev)|].
  destruct (e =? w); [intros [= <-]; exact Hu|discriminate].
Qed.
Lemma tval_G n es it us e : Forall (GC n) (us (it e)) -> GC n (tval es us it c0 e).
Proof.
  intros H. unfold tval. destruct (ilast (es (it e)) (us (it e)) e) as [z|] eqn:Ez; [exact (ilast_G n _ _ _ _ H Ez)|apply gc_0].
Qed.
Lemma ang_G N p (t : double) : len31 N -> (Z.of_nat p <= 2 ^ 33)%Z -> small 3 t ->
  small 1 (@scos Op (@smul Op (@sn Op p) (@sdiv Op t (@sn Op N)))) /\ small 1 (@ssin Op (@smul Op (@sn Op p) (@sdiv Op t (@sn Op N)))).
Proof.
  intros HN Hp Ht. apply log32 in Hp.
  assert (Ha : GR 0 (@smul Op (@sn Op p) (@sdiv Op t (@sn Op N))) (@smul grade (@sn grade p) ((0, 3) : @Sc grade))).
  { apply (si_mul _ _ _ _ (S 0)); [apply (p_ofN (S 0))|]. apply (si_div _ _ _ _ (S 0)) with (y' := sn N); [exact Ht|apply (si_ofZK _ _ _ _ (S 0)); exact HN]. }
  assert (E : trig (@smul grade (@sn grade p) ((0, 3) : @Sc grade)) = (0, 1)).
  { apply trig_ok; [reflexivity|]. unfold sn. cbn [smul sofZ grade gmul snd]. lia. }
  pose proof (si_cos _ _ _ _ (S 0) _ _ Ha) as Hc. pose proof (si_sin _ _ _ _ (S 0) _ _ Ha) as Hs. cbn [scos ssin grade] in Hc, Hs. rewrite E in Hc, Hs. split; assumption.
Qed.
Lemma half2_G n a b : small n a -> small n b -> GC n (@half2 Op a b).
Proof. intros Ha Hb. split; apply s_div; auto; apply d_ofZ; split; (reflexivity || (intros E; discriminate E)). Qed.
Lemma U_T_G N e : len31 N -> e <= N -> GC 2 (U_T N e).
Proof.
  intros HN He. unfold U_T. apply tval_G.
  assert (Hi : U_it N e <= e).
  { unfold U_it. destruct (negb (N =? 2 ^ Nat.log2 N)); [lia|]. destruct (Nat.leb_spec N 4); [lia|]. cbv zeta.
    pose proof (Nat.mod_le e (N / 4)). assert (N / 4 <> 0) by (pose proof (Nat.div_str_pos N 4 ltac:(lia)); lia). lia. }
  generalize dependent (U_it N e). intros p Hp. unfold U_us. cbv zeta.
  assert (H33 : (Z.of_nat p <= 2 ^ 33)%Z) by (apply (up33 N); [exact HN|destruct HN; lia]).
  destruct (ang_G N p (@smul Op s2 spi) HN H33) as [Hc Hs]; [apply (s_mul 1 2); [apply (s_ofZ 2)|apply s_pi]|].
  set (c := @scos Op _) in *. set (s := @ssin Op _) in *. clearbody c s.
  assert (H1 : small 0 (@s1 Op)) by apply (s_ofZ 1). assert (H0 : small 0 (@s0 Op)) by apply (s_ofZ 0). assert (H2 : small 1 (@s2 Op)) by apply (s_ofZ 2).
  assert (Hm : small 0 (@sofZ Op (-1))) by apply (s_ofZ (-1)).
  pose proof (s_neg _ _ Hs : small 1 (@sneg Op s)) as Hs'. pose proof (s_neg _ _ Hc : small 1 (@sneg Op c)) as Hc'. pose proof (s_neg _ _ Hs' : small 1 (@sneg Op (sneg s))) as Hs''.
  assert (H12 : forall n (x : double), n <= 2 -> small n x -> small 2 x) by (intros n x Hn Hx; exact (small_le _ _ _ Hn Hx)).
  assert (A1 : small 2 (@sadd Op s1 (sneg s))) by (apply (s_add 0 1); auto). assert (A2 : small 2 (@ssub Op s1 (sneg s))) by (apply (s_sub 0 1); auto).
  assert (A3 : small 2 (@sadd Op s1 c)) by (apply (s_add 0 1); auto). assert (A4 : small 2 (@ssub Op s1 c)) by (apply (s_sub 0 1); auto).
  apply H12 in H1, H0, H2, Hm, Hs', Hc', Hs'', Hc; try lia.
  repeat match goal with |- Forall _ (if ?b then _ else _) => destruct b end; repeat (apply Forall_cons; [apply half2_G; assumption|]); apply Forall_nil.
Qed.
Lemma rval_G n d : small n d -> GC n (@rval Op d).
Proof. intros H. split; [exact H|]. exact (small_le 0 n _ (Nat.le_0_l n) (s_ofZ 0)). Qed.
Lemma rf_div_G N k n v : len31 N -> small n v -> small n (@rf_div Op N k v).
Proof. intros HN H. destruct k; cbn [rf_div]; try exact H; (apply s_div; [exact H|]); first [apply d_ofZ; exact HN|apply d_sqrt; exact HN]. Qed.
Lemma sq_coef_G N z : len31 N -> small (Z.to_nat (Z.log2_up (Z.abs z))) (@sdiv Op (sofZ z) (ssqrt (sn N))).
Proof. intros HN. apply s_div; [apply s_ofZ|apply d_sqrt; exact HN]. Qed.
Lemma rf_mul_G N k n v : len31 N -> GC n v -> GC n (@rf_mul Op N k v).
Proof.
  intros HN H. destruct k; cbn [rf_mul]; try exact H; (apply (gc_scal 0); [|exact H]); first [exact (coef_p (S 0) N HN)|exact (sq_coef_G N 1 HN)].
Qed.
Lemma ri_mul_G N k n v : len31 N -> GC n v -> GC (1 + n) (@ri_mul Op N k v).
Proof.
  intros HN H. destruct k; cbn [ri_mul]; try (eapply GC_le; [|exact H]; lia); (apply (gc_scal 1); [|exact H]); first [exact (sq_coef_G N 2 HN)|exact (s_ofZ 2)].
Qed.

Lemma half_log N : 2 <= N / 2 -> N = 2 * (N / 2) -> 10 * Nat.log2 (N / 2) + 10 = 10 * Nat.log2 N.
Proof. intros H2 HE. rewrite HE at 2. rewrite Nat.log2_double by lia. lia. Qed.
Theorem rfft_F_G N k e X : real_length N -> GV N e X -> GV N (e + 10 * Nat.log2 N) (rfft_F N k X).
Proof.
  intros HN HX. pose proof (real_31 N HN) as HL. destruct HN as (EN & _ & HV). assert (H2 : 2 <= N / 2) by apply HV. rewrite <- (half_log N H2 EN). unfold rfft_F.
  assert (HZ : GV (N / 2) (e + 10 * Nat.log2 (N / 2)) (fft0_F (N / 2) fwd0 (rf_z X))).
  { apply fft0_F_G; [exact HV|]. intros p Hp. unfold rf_z. split; cbn [fst snd mkC]; apply HX; lia. }
  rewrite Nat.add_assoc. generalize dependent (fft0_F (N / 2) fwd0 (rf_z X)). generalize (e + 10 * Nat.log2 (N / 2)) as n. intros n Z HZ.
  assert (Hc : forall i, 0 < i < N / 2 -> GC (n + 4) (cmul (U_T N i) (csub (Z i) (cconj (Z (N / 2 - i)))))).
  { intros i Hi. eapply GC_le; [|apply gc_mul; [apply U_T_G; [exact HL|lia]|apply gc_sub; [apply HZ; lia|apply gc_conj, HZ; lia]]]. lia. }
  assert (Hf : forall i, 0 < i < N / 2 -> GC (n + 10) (rf_half N k (U_T N) Z i)).
  { intros i Hi. unfold rf_half, rf_first, rf_second. cbv zeta. destruct (N / 2 - i <=? N / 4); apply rf_mul_G; auto.
    - apply gc_conj. eapply GC_le; [|apply gc_add; [apply gc_conj, HZ; lia|apply Hc; lia]]. lia.
    - eapply GC_le; [|apply gc_sub; [apply HZ; lia|apply Hc; lia]]. lia. }
  intros i Hi. unfold rf_out. cbv zeta. destruct (HZ 0 ltac:(lia)) as [Za Zb].
  destruct (Nat.eqb_spec i 0); [|destruct (Nat.ltb_spec i (N / 2)); [|destruct (Nat.eqb_spec i (N / 2))]].
  - apply rval_G, rf_div_G; auto. apply (s_add n n); auto; lia.
  - apply Hf; lia.
  - apply rval_G, rf_div_G; auto. apply (s_sub n n); auto; lia.
  - apply gc_conj, Hf; lia.
Qed.
Theorem rfft_G_G N k e X : real_length N -> GV N e X -> GV N (e + 10 * Nat.log2 N) (rfft_G N k X).
Proof.
  intros HN HX. pose proof (real_31 N HN) as HL. destruct HN as (EN & _ & HV). assert (H2 : 2 <= N / 2) by apply HV. rewrite <- (half_log N H2 EN). unfold rfft_G.
  assert (HZ : GV (N / 2) (e + 6 + 10 * Nat.log2 (N / 2)) (fft0_F (N / 2) (ri_kind k) (ri_z N k (U_T N) X))).
  { apply fft0_F_G; [exact HV|]. intros p Hp. unfold ri_z. cbv zeta.
    eapply GC_le; [|apply ri_mul_G; [exact HL|]; apply gc_conj, gc_sub; [apply gc_conj, HX; lia|];
      apply gc_mul; [apply U_T_G; [exact HL|lia]|]; apply gc_sub; [apply gc_conj|]; apply HX; lia]. lia. }
  intros i Hi. unfold ri_out. apply rval_G. assert (Hh : i / 2 < N / 2) by (apply Nat.div_lt_upper_bound; lia).
  destruct (GC_le (e + 6 + 10 * Nat.log2 (N / 2)) (e + (10 * Nat.log2 (N / 2) + 10)) _ ltac:(lia) (HZ (i / 2) Hh)) as [Ha Hb]. destruct (Nat.even i); assumption.
Qed.

(** ** RealDCT *)
Lemma V_T_G N e : len31 (2 * N) -> e <= N -> GC 1 (V_T N e).
Proof.
  intros HN He. unfold V_T. apply tval_G. assert (Hp : V_it N e <= e) by (unfold V_it; lia). generalize dependent (V_it N e). intros p Hp.
  unfold V_us. cbv zeta. destruct (ang_G (2 * N) p (@spi Op) HN) as [Hc Hs]; [apply (up33 (2 * N)); [exact HN|destruct HN; lia]|exact (small_le 2 3 _ ltac:(lia) s_pi)|].
  repeat (apply Forall_cons; [split; assumption|]). apply Forall_nil.
Qed.
Theorem dct_res_G N k e X : dct_length N -> GV N e X -> GV N (e + 10 * Nat.log2 N + 2) (dct_res N k X).
Proof.
  intros HN HX. pose proof (fun i => V_T_G N i (dct_31 N HN)) as HV. destruct HN as (HR & _). assert (EN : N = 2 * (N / 2)) by apply HR.
  assert (H2 : 2 <= N / 2) by apply HR. unfold dct_res. destruct (dmeth_inv k).
  - unfold dct_G.
    assert (HQ : GV N (e + 2 + 10 * Nat.log2 N) (rfft_G N (dct_kind k) (di_in N (V_T N) X))).
    { apply rfft_G_G; auto. intros i Hi. unfold di_in. destruct (Nat.eqb_spec i 0) as [->|Hi0].
      - apply rval_G. destruct (HX 0 Hi) as [H _]. exact (small_le e (e + 2) _ ltac:(lia) H).
      - eapply GC_le; [|apply gc_mulT; [apply HV; lia|split; cbn [fst snd mkC]; [apply HX; lia|apply s_neg, HX; lia]]]. lia. }
    intros i Hi. unfold di_out. assert (i / 2 < N / 2) by (apply Nat.div_lt_upper_bound; lia). replace (e + 10 * Nat.log2 N + 2) with (e + 2 + 10 * Nat.log2 N) by lia.
    destruct (Nat.even i); apply HQ; lia.
  - unfold dct_F. intros i Hi.
    assert (HQ : GV N (e + 10 * Nat.log2 N) (rfft_F N (dct_kind k) (df_in N X))).
    { apply rfft_F_G; auto. intros j Hj. unfold df_in. destruct (Nat.ltb_spec j (N / 2)); apply HX; lia. }
    unfold df_out. apply rval_G. destruct (HQ i Hi) as [Qa Qb]. destruct (HV i ltac:(lia)) as [Va Vb].
    apply (s_add (1 + (e + 10 * Nat.log2 N)) (1 + (e + 10 * Nat.log2 N))); [lia|lia|apply s_mul|apply s_mul]; assumption.
Qed.

(** ** Bluestein *)
Lemma bl_T_G N e : len31 N -> e <= 2 * N -> GC 1 (bl_T N e).
Proof.
  intros HN He.
  assert (Hang : forall p, p < 2 * N -> small 1 (@scos Op (bl_ang N p)) /\ small 1 (@ssin Op (bl_ang N p))).
  { intros p Hp. unfold bl_ang. apply (ang_G N p (@spi Op) HN); [apply (up33 N); auto|exact (small_le 2 3 _ ltac:(lia) s_pi)]. }
  assert (H1 : GC 1 (@c1 Op)) by (split; [exact (small_le 0 1 _ ltac:(lia) (s_ofZ 1))|exact (small_le 0 1 _ ltac:(lia) (s_ofZ 0))]).
  unfold bl_T. destruct (Nat.eqb_spec e 0); [exact H1|]. destruct (Nat.eqb_spec e (2 * N)); [exact H1|].
  destruct (Nat.eqb_spec e N); [split; [exact (small_le 0 1 _ ltac:(lia) (s_ofZ (-1)))|exact (small_le 0 1 _ ltac:(lia) (s_ofZ 0))]|].
  destruct (Nat.ltb_spec e N).
  - destruct (Hang e ltac:(lia)) as [Hc Hs]. split; [exact Hc|apply s_neg, Hs].
  - destruct (Hang (2 * N - e) ltac:(lia)) as [Hc Hs]. split; [exact Hc|apply s_neg, s_neg, Hs].
Qed.
Theorem bl_F_G N P k e X : bl_length N -> 2 <= N -> pad_loop 32 1 (2 * N - 1) = Some P -> GV N e X -> GV N (e + 6 + 30 * Nat.log2 P) (bl_F N k X).
Proof.
  intros HN H2 EL HX i Hi. pose proof (bl_31 N HN) as HL. pose proof (fun j => bl_T_G N j HL) as HT. unfold bl_F. destruct (Nat.ltb_spec N 2) as [H|_]; [lia|].
  rewrite EL. assert (HV : valid_length P) by (apply (bl_pad_valid N P HN EL); exact H2).
  assert (HLN : N <= P) by (destruct (bl_pad_valid N P HN EL); lia).
  assert (H1 : GC 1 (@c1 Op)) by (split; [exact (small_le 0 1 _ ltac:(lia) (s_ofZ 1))|exact (small_le 0 1 _ ltac:(lia) (s_ofZ 0))]).
  assert (Hx : forall i, GC 1 (bl_x (meth_inv k) N (bl_T N) i)).
  { intros j. unfold bl_x. destruct (j =? 0); [exact H1|apply HT]. destruct (bl_e_lt (meth_inv k) N j ltac:(lia)). lia. }
  unfold bl_FL. cbv zeta. set (l := Nat.log2 P).
  assert (HA : GV P (e + 2 + 10 * l) (fft0_F P fwd0 (bl_A (meth_inv k) N (bl_T N) X))).
  { apply fft0_F_G; [exact HV|]. intros j Hj. unfold bl_A. destruct (Nat.eqb_spec j 0); [eapply GC_le; [|apply HX]; lia|].
    destruct (Nat.ltb_spec j N); [|apply gc_0]. eapply GC_le; [|apply gc_mulT; [apply HX; lia|apply HT; destruct (bl_e_lt (meth_inv k) N j ltac:(lia)); lia]]. lia. }
  assert (HB : GV P (1 + 10 * l) (fft0_F P fwd0 (bl_B (meth_inv k) N P (bl_T N)))).
  { apply fft0_F_G; [exact HV|]. intros j Hj. unfold bl_B. destruct (j <? N); [apply Hx|]. destruct (P - j <? N); [apply Hx|apply gc_0]. }
  assert (HP : GC (e + 6 + 30 * l) (cmul (fft0_F P invn (fun j => cmul (fft0_F P fwd0 (bl_A (meth_inv k) N (bl_T N) X) j) (fft0_F P fwd0 (bl_B (meth_inv k) N P (bl_T N)) j)) i) (cconj (bl_x (meth_inv k) N (bl_T N) i)))).
  { assert (HC : GV P (e + 4 + 20 * l + 10 * l) (fft0_F P invn (fun j => cmul (fft0_F P fwd0 (bl_A (meth_inv k) N (bl_T N) X) j) (fft0_F P fwd0 (bl_B (meth_inv k) N P (bl_T N)) j)))).
    { apply fft0_F_G; [exact HV|]. intros j Hj. eapply GC_le; [|apply gc_mul; [apply HA, Hj|apply HB, Hj]]. lia. }
    eapply GC_le; [|apply gc_mul; [apply HC; lia|apply gc_conj, Hx]]. lia. }
  pose proof (coef_p (S 0) N HL : small 0 _) as Hc. unfold bl_scale, sn. destruct k; try exact HP; (apply (gc_scal 0); [|exact HP]); first [exact Hc|exact (si_sqrt _ _ _ _ (S 0) _ HL)].
Qed.
End GradeFft.
