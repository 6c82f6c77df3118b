(** * Rounding errors of the real transform *)

From Coq Require Import Reals ZArith List Arith Bool Lia Lra Psatz Permutation.
From Verif Require Import Scalar RealOps Spec DftFacts Norm Simd Round RoundTab RoundStage RoundPow RoundSix RoundMixed RoundApi.
From Verif Require Import Mem Lanes Stage Object Engine ApiSpec FactorFacts Blocks ModelApi ApiFacts ModelReal RealFacts RealRun RealExact PowSpec PowExact.
From Verif Require DctExact PropAccuracy ComplexThms ApiExact SixExact.
Import ListNotations.
Local Open Scope R_scope.

Section Table.
Variables (A : rounding) (bd : build).
Notation F := (fl A bd).
Notation ap := (approx A).
Notation tap := (tapx A).
Notation rd := (rnd A).

Lemma EE01 : EE A 0 1 - 1 = tau A.
Proof. unfold EE. cbn. ring. Qed.
Lemma tau0 : 0 <= tau A.
Proof. pose proof (T1 A). lra. Qed.
(** one entry: half of (1 + p', q') where (p', q') approximates a point (p, q) of the unit circle *)
Lemma U_ent p' q' p q : (p' - p) * (p' - p) + (q' - q) * (q' - q) <= tau A * tau A -> p * p + q * q = 1 ->
  tap 2 1 (rd (rd (1 + p') / 2), rd (q' / 2)) ((1 + p) / 2, q / 2).
Proof.
  intros H1 H2. pose proof tau0 as Ht. pose proof (psi0 A) as Ps. pose proof (psi_small A) as Pl.
  assert (C1 : cabs ((1 + p) / 2, q / 2) <= 1).
  { apply cabs_le; [lra|]. unfold cnorm2. cbn [Re Im fst snd]. assert (-1 <= p <= 1) by nra. nra. }
  assert (C2 : cabs (@csub ROps ((1 + p') / 2, q' / 2) ((1 + p) / 2, q / 2)) <= tau A / 2).
  { apply cabs_le; [lra|]. unfold cnorm2. creduce. nra. }
  split; [exact C1|]. eapply Rle_trans; [apply (cabs_tri _ ((1 + p') / 2, q' / 2))|].
  assert (C3 : cabs (@csub ROps (rd (rd (1 + p') / 2), rd (q' / 2)) ((1 + p') / 2, q' / 2)) <= ((1 + uu A) ^ 2 - 1) * (cabs ((1 + p') / 2, q' / 2) + psi A)).
  { apply (cabs_relp A 2).
    - cbn [fst]. apply relp_rnd. unfold Rdiv. rewrite Rmult_comm, (Rmult_comm (1 + p')). apply (relp_mul A 0 1); [apply rel_0| |apply relp_1]. rewrite Rabs_right; lra.
    - cbn [snd]. apply (relp_mono A 1); [lia|apply relp_1]. }
  pose proof (cabs_near ((1 + p') / 2, q' / 2) ((1 + p) / 2, q / 2)) as C4.
  pose proof (U1 A) as HU. pose proof (pow_ge1 (1 + uu A) 2 HU) as HU2.
  assert (Htau : (1 + uu A) ^ 2 - 1 <= tau A).
  { unfold tau. pose proof (lam0 A). pose proof PI2_1. assert ((1 + uu A) ^ 2 <= (1 + uu A) ^ 5) by (apply Rle_pow; [auto|lia]). nra. }
  replace (EE A 2 1 - 1) with ((1 + uu A) ^ 2 * (1 + tau A) - 1) by (unfold EE; rewrite (pow_1 (1 + tau A)); reflexivity).
  set (c := (1 + uu A) ^ 2 - 1) in *. replace ((1 + uu A) ^ 2) with (1 + c) by (unfold c; ring). set (w' := cabs ((1 + p') / 2, q' / 2)) in *. set (t := tau A) in *.
  assert (HW : w' <= 1 + t / 2) by lra. assert (Hc0 : 0 <= c) by (unfold c; lra). assert (c * (w' + psi A) <= c * (1 + t / 2 + psi A)) by (apply Rmult_le_compat_l; lra).
  assert (c * psi A <= t * (1 / 2)) by (apply Rmult_le_compat; lra). assert (0 <= c * t) by (apply Rmult_le_pos; auto). lra.
Qed.
Lemma half2_F a b : @half2 F a b = (rd (a / rd (IZR 2)), rd (b / rd (IZR 2))).
Proof. reflexivity. Qed.
Lemma rd0 : rd (IZR 0) = 0.
Proof. apply (rnd_int A). cbn. lia. Qed.
Lemma rdm1 : rd (IZR (-1)) = -1.
Proof. apply (rnd_int A). cbn. lia. Qed.
Lemma half_const a b a' b' : a' = a -> b' = b -> a * a + b * b <= 4 -> tap 2 1 (rd (a' / 2), rd (b' / 2)) (a / 2, b / 2).
Proof.
  intros -> -> H. assert (C1 : cabs (a / 2, b / 2) <= 1) by (apply cabs_le; [lra|]; unfold cnorm2; cbn [Re Im fst snd]; lra). split; [exact C1|].
  eapply Rle_trans; [apply (cabs_relp A 1); apply relp_1|]. pose proof (U1 A). pose proof (T1 A). pose proof (psi_small A). pose proof (psi0 A). pose proof (cabs_pos (a / 2, b / 2)).
  apply Rle_trans with ((1 + uu A) ^ 2 - 1).
  - cbn [pow fst snd]. nra.
  - unfold EE. rewrite pow_1. pose proof (pow_ge1 (1 + uu A) 2 (U1 A)). nra.
Qed.
Lemma U_ap N e : (0 < N)%nat -> (Z.of_nat N <= 2 ^ 31)%Z -> (e < N + 1)%nat -> tap 2 1 (@U_T F N e) (Uval N e).
Proof.
  intros HN H31 He. revert e He. unfold U_T.
  apply (tval_prop (@U_es N) (@U_us F N) (U_it N) (@c0 F) (U_n N) (N + 1) (fun e v => tap 2 1 v (Uval N e))).
  - intros. apply U_len.
  - intros e He. apply U_cov; auto.
  - intros i. 
    assert (HN0 : INR N <> 0) by (apply not_0_INR; lia).
    assert (HT : (i <= N)%nat -> let t := @smul F (@sn F i) (@sdiv F (@smul F (@s2 F) (@spi F)) (@sn F N)) in
      (f_cos A t - cos (ang N i)) * (f_cos A t - cos (ang N i)) + (f_sin A t - sin (ang N i)) * (f_sin A t - sin (ang N i)) <= tau A * tau A).
    { intros Hi t.
      assert (Hr : rel A 5 t (ang N i)).
      { change t with (rd (rd (IZR (Z.of_nat i)) * rd (rd (rd (IZR 2) * c_pi A) / rd (IZR (Z.of_nat N))))). rewrite two_ok, !int_ok by lia.
        apply (rel_mono A 4); [lia|]. unfold ang. replace (2 * PI * INR i / INR N) with (INR i * (2 * PI / INR N)) by (field; auto).
        assert (HB : big (2 * PI / INR N)) by (apply big_quot; auto; apply pi_abs, abs_2).
        apply rel_rnd; [lia|apply big_natl; exact HB|]. apply rel_mul_l. apply rel_rnd; [lia|exact HB|]. unfold Rdiv. apply rel_mul_r. apply rel_rnd; [lia|apply big_1, pi_abs, abs_2|]. apply rel_mul_l, rel_pi. }
      assert (Hb : Rabs (ang N i) <= 2 * PI).
      { rewrite <- Rabs_Ropp. replace (- ang N i) with (- 2 * PI / INR N * INR i) by (unfold ang; field; auto). apply RoundTab.ang; auto. }
      pose proof (ta_root A t (ang N i) 1 (or_introl eq_refl) Hr Hb) as [_ G]. rewrite EE01, !Rmult_1_l in G.
      set (d := @csub ROps ((f_cos A t, f_sin A t) : CC) (cis (ang N i))) in *. pose proof (cabs_pos d) as P. pose proof (cabs_sq d) as S.
      assert (S2 : cabs d * cabs d <= tau A * tau A) by (apply Rmult_le_compat; auto). rewrite S in S2. clear - S2.
      unfold d, cnorm2, cis in S2. revert S2. creduce. intros S2. exact S2. }
    assert (H1 : cos (ang N i) * cos (ang N i) + sin (ang N i) * sin (ang N i) = 1) by (pose proof (sin2_cos2 (ang N i)); unfold Rsqr in *; lra).
    unfold U_n, U_es, U_us.
    set (th := @smul F (@sn F i) (@sdiv F (@smul F (@s2 F) (@spi F)) (@sn F N))) in *.
    change (@scos F th) with (f_cos A th). change (@ssin F th) with (f_sin A th). change (@sneg F) with Ropp. cbv zeta in HT.
    change (@s1 F) with (rd (IZR 1)). change (@s2 F) with (rd (IZR 2)). change (@s0 F) with (rd (IZR 0)). change (@sofZ F (-1)) with (rd (IZR (-1))).
    change (@sadd F) with (fun x y => rd (x + y)). change (@ssub F) with (fun x y => rd (x - y)). cbv beta.
    rewrite !half2_F, ?one_ok, ?two_ok, ?rd0, ?rdm1.
    destruct (Nat.eqb_spec N (2 ^ Nat.log2 N)) as [E|E]; cbn [negb].
    + destruct (Nat.leb_spec N 4) as [H4|H4]; intros Hi.
      * clear HT H1. destruct (pow2_small N E H4) as [-> | [-> | ->]]; cbn [Nat.eqb combine]; repeat first [apply Forall_cons|apply Forall_nil]; cbn [fst snd]; unfold Uval, ang.
        all: cbn [INR] in *.
        all: match goal with |- context [2 * PI * ?x / ?y] => 
             first [replace (2 * PI * x / y) with 0 by field; rewrite sin_0, cos_0
                   |replace (2 * PI * x / y) with (2 * PI) by field; rewrite sin_2PI, cos_2PI
                   |replace (2 * PI * x / y) with PI by field; rewrite sin_PI, cos_PI
                   |replace (2 * PI * x / y) with (PI / 2) by field; rewrite sin_PI2, cos_PI2
                   |replace (2 * PI * x / y) with (3 * (PI / 2)) by field; rewrite sin_3PI2, cos_3PI2] end.
        all: apply half_const; lra.
      * destruct (pow2_8 N E) as (E8 & Hp); try lia. destruct (div_8 N _ E8) as (B1 & B2 & _).
        repeat match goal with |- context [(N =? ?k)%nat] => destruct (Nat.eqb_spec N k); [lia|] end.
        cbv zeta. rewrite B1, B2. specialize (HT ltac:(lia)). set (Ne := (N / 8)%nat) in *. clearbody Ne.
        assert (EN : INR N = 8 * INR Ne) by (rewrite E8, mult_INR; cbn [INR]; ring).
        assert (T1 : INR (2 * Ne) = INR N * (/ 4)) by (rewrite EN, mult_INR; cbn [INR]; field).
        assert (T2 : INR (4 * Ne) = INR N * (/ 2)) by (rewrite EN, mult_INR; cbn [INR]; field).
        assert (T3 : INR (N - 2 * Ne) = INR N * (3 / 4)) by (rewrite minus_INR, EN, mult_INR by lia; cbn [INR]; field).
        assert (T4 : INR N = INR N * 1) by ring.
        assert (A1 : 2 * PI * / 4 = PI / 2) by field.
        assert (A2 : 2 * PI * / 2 = PI) by field.
        assert (A3 : 2 * PI * (3 / 4) = 3 * (PI / 2)) by field.
        clearbody th.
        repeat first [apply Forall_cons|apply Forall_nil]; cbn [fst snd]; unfold Uval.
        all: first [rewrite (ang_plus N i _ _ HN T1)|rewrite (ang_minus N i (2 * Ne)%nat _ HN ltac:(lia) T1)
                   |rewrite (ang_plus N i _ _ HN T2)|rewrite (ang_minus N i (4 * Ne)%nat _ HN ltac:(lia) T2)
                   |rewrite (ang_plus N i _ _ HN T3)|rewrite (ang_minus N i (N - 2 * Ne)%nat _ HN ltac:(lia) T3)
                   |rewrite (ang_minus N i N 1 HN ltac:(lia) T4)|idtac].
        all: rewrite ?A1, ?A2, ?A3, ?Rmult_1_r, ?sin_plus, ?cos_plus, ?sin_minus, ?cos_minus, ?sin_PI2, ?cos_PI2, ?sin_PI, ?cos_PI, ?sin_3PI2, ?cos_3PI2, ?sin_2PI, ?cos_2PI.
        all: set (c := cos (ang N i)) in *; set (s := sin (ang N i)) in *; set (c' := f_cos A th) in *; set (s' := f_sin A th) in *.
        all: try match goal with |- context [rnd A (1 - ?x)] => replace (1 - x) with (1 + - x) by ring end.
        all: apply U_ent; nra.
    + intros Hi. assert (T4 : INR N = INR N * 1) by ring.
      pose proof (Nat.div_mod N 2 ltac:(lia)). specialize (HT ltac:(lia)). clearbody th.
      repeat first [apply Forall_cons|apply Forall_nil]; cbn [fst snd]; unfold Uval.
      all: first [rewrite (ang_minus N i N 1 HN ltac:(lia) T4)|idtac].
      all: rewrite ?Rmult_1_r, ?sin_minus, ?cos_minus, ?sin_2PI, ?cos_2PI.
      all: set (c := cos (ang N i)) in *; set (s := sin (ang N i)) in *; set (c' := f_cos A th) in *; set (s' := f_sin A th) in *.
      all: try match goal with |- context [rnd A (1 - ?x)] => replace (1 - x) with (1 + - x) by ring end.
      all: apply U_ent; nra.
Qed.
End Table.

(** ** splitting the transform of half length, exact arithmetic *)
Lemma rsum_rev n f : rsum n f = rsum n (fun i => f (n - 1 - i)%nat).
Proof.
  induction n as [|n IH] in f |- *; [reflexivity|]. change (S n) with (1 + n)%nat at 1. rewrite rsum_app.
  change (rsum (S n) (fun i => f (S n - 1 - i)%nat)) with (rsum n (fun i => f (S n - 1 - i)%nat) + f (S n - 1 - n)%nat).
  rewrite (IH (fun i => f (1 + i)%nat)). cbn [rsum]. replace (S n - 1 - n)%nat with 0%nat by lia. rewrite Rplus_0_l, Rplus_comm. f_equal.
  apply rsum_ext. intros i Hi. f_equal. lia.
Qed.
Lemma rsum_mirror h f : (0 < h)%nat -> rsum (h - 1) (fun i => f (h - (i + 1))%nat) = rsum (h - 1) (fun i => f (i + 1)%nat).
Proof. intros Hh. rewrite (rsum_rev (h - 1) (fun i => f (i + 1)%nat)). apply rsum_ext. intros i Hi. f_equal. lia. Qed.
(** a sum over 0 .. 2h-1 whose second half mirrors the first *)
Lemma rsum_half h f g : (0 < h)%nat -> (forall k, (0 < k < h)%nat -> f k = g k /\ f (2 * h - k)%nat = g k) ->
  rsum (2 * h) f = f 0%nat + f h + 2 * rsum (h - 1) (fun i => g (i + 1)%nat).
Proof.
  intros Hh H. replace (2 * h)%nat with (1 + ((h - 1) + (1 + (h - 1))))%nat by lia. rewrite !rsum_app. cbn [rsum].
  replace (1 + (h - 1 + 0))%nat with h by lia.
  rewrite (rsum_ext (h - 1) (fun i => f (1 + i)%nat) (fun i => g (i + 1)%nat)) by (intros i Hi; rewrite (Nat.add_comm 1); apply H; lia).
  assert (E : rsum (h - 1) (fun i => f (1 + (h - 1 + (1 + i)))%nat) = rsum (h - 1) (fun i => g (i + 1)%nat)).
  { rewrite <- (rsum_mirror h g) by auto. apply rsum_ext. intros i Hi. replace (1 + (h - 1 + (1 + i)))%nat with (2 * h - (h - (i + 1)))%nat by lia. apply H. lia. }
  rewrite E. ring.
Qed.
Lemma rsum_first h f : (0 < h)%nat -> rsum h f = f 0%nat + rsum (h - 1) (fun i => f (i + 1)%nat).
Proof.
  intros Hh. replace h with (1 + (h - 1))%nat at 1 by lia. rewrite rsum_app. cbn [rsum]. rewrite Rplus_0_l. f_equal.
  apply rsum_ext. intros i Hi. f_equal. lia.
Qed.
Lemma cnorm2_conj (z : CC) : cnorm2 (cconj z) = cnorm2 z.
Proof. unfold cnorm2. creduce. ring. Qed.

Section Split.
Variables (N h : nat).
Hypothesis EN : N = (2 * h)%nat.
Hypothesis Hh : (2 <= h)%nat.
Definition sg (Z : nat -> CC) (k : nat) : CC := csub (Z k) (cmul (Uval N k) (csub (Z k) (cconj (Z (h - k)%nat)))).
Definition sG (Z : nat -> CC) (e : nat) : CC :=
  if (e =? 0)%nat then rc (Re (Z 0%nat) + Im (Z 0%nat)) else if (e <? h)%nat then sg Z e
  else if (e =? h)%nat then rc (Re (Z 0%nat) - Im (Z 0%nat)) else cconj (sg Z (N - e)).
Lemma Uval_conj k : (k <= h)%nat -> Uval N (h - k) = cconj (Uval N k).
Proof.
  intros Hk. rewrite !Uval_W.
  assert (EW : W false N (h - k) = cneg (cconj (W false N k))).
  { rewrite W_conj. cbn [negb].
    assert (E1 : W false N (h - k) = W false N (N - (h + k))) by (f_equal; lia).
    rewrite E1, W_rev by lia. cbn [negb]. rewrite W_add, EN, W_half by lia. ring. }
  rewrite EW. generalize (W false N k). intros w. csimp; field.
Qed.
Lemma sg_second Z k : (k <= h)%nat -> cconj (cadd (cconj (Z (h - k)%nat)) (cmul (Uval N k) (csub (Z k) (cconj (Z (h - k)%nat))))) = sg Z (h - k).
Proof.
  intros Hk. unfold sg. rewrite Uval_conj by auto. replace (h - (h - k))%nat with k by lia. generalize (Z k) (Z (h - k)%nat) (Uval N k). intros a b w. csimp; ring.
Qed.
Lemma sg_pair Z k : (k <= h)%nat -> cnorm2 (sg Z k) + cnorm2 (sg Z (h - k)) = cnorm2 (Z k) + cnorm2 (Z (h - k)%nat).
Proof.
  intros Hk. unfold sg. rewrite Uval_conj by auto. replace (h - (h - k))%nat with k by lia. generalize (Z k) (Z (h - k)%nat). intros [a b] [c d].
  unfold Uval. pose proof (sin2_cos2 (ang N k)) as H. unfold Rsqr in H. set (s := sin (ang N k)) in *. set (cc := cos (ang N k)) in *.
  assert (Hc : cc * cc = 1 - s * s) by lra. unfold cnorm2. creduce. 
  match goal with |- ?l = ?r => assert (l - r = ((a - c) * (a - c) + (b + d) * (b + d)) * / 2 * (s * s + cc * cc - 1)) by field end.
  rewrite H in H0. lra.
Qed.
Lemma sG_0 Z : sG Z 0 = rc (Re (Z 0%nat) + Im (Z 0%nat)).
Proof. reflexivity. Qed.
Lemma sG_h Z : sG Z h = rc (Re (Z 0%nat) - Im (Z 0%nat)).
Proof. unfold sG. destruct (Nat.eqb_spec h 0); [lia|]. rewrite Nat.ltb_irrefl, Nat.eqb_refl. reflexivity. Qed.
Lemma sG_lo Z k : (0 < k < h)%nat -> sG Z k = sg Z k.
Proof. intros Hk. unfold sG. destruct (Nat.eqb_spec k 0); [lia|]. destruct (Nat.ltb_spec k h); [reflexivity|lia]. Qed.
Lemma sG_hi Z k : (0 < k < h)%nat -> sG Z (N - k) = cconj (sg Z k).
Proof.
  intros Hk. unfold sG. destruct (Nat.eqb_spec (N - k) 0); [lia|]. destruct (Nat.ltb_spec (N - k) h); [lia|]. destruct (Nat.eqb_spec (N - k) h); [lia|].
  do 2 f_equal. lia.
Qed.
Lemma sG_cases (P : nat -> Prop) : P 0%nat -> P h -> (forall k, (0 < k < h)%nat -> P k) -> (forall k, (0 < k < h)%nat -> P (N - k)%nat) -> forall e, (e < N)%nat -> P e.
Proof.
  intros H0 H1 H2 H3 e He. destruct (Nat.eq_dec e 0) as [->|]; auto. destruct (lt_eq_lt_dec e h) as [[Hl | ->] | Hl]; auto.
  - apply H2. lia.
  - replace e with (N - (N - e))%nat by lia. apply H3. lia.
Qed.
Lemma sG_norm Z : nrm N (sG Z) = sqrt 2 * nrm h Z.
Proof.
  apply nrm_eq; [lra|]. rewrite EN, (rsum_half h _ (fun k => cnorm2 (sg Z k))); [|lia|].
  - rewrite sG_0, sG_h.
    assert (E : rsum (h - 1) (fun i => cnorm2 (sg Z (i + 1))) = rsum (h - 1) (fun i => cnorm2 (Z (i + 1)%nat))).
    { pose proof (rsum_mirror h (fun k => cnorm2 (sg Z k)) ltac:(lia)) as M1. pose proof (rsum_mirror h (fun k => cnorm2 (Z k)) ltac:(lia)) as M2. cbv beta in M1, M2.
      assert (P : rsum (h - 1) (fun i => cnorm2 (sg Z (i + 1)) + cnorm2 (sg Z (h - (i + 1)))) = rsum (h - 1) (fun i => cnorm2 (Z (i + 1)%nat) + cnorm2 (Z (h - (i + 1))%nat))).
      { apply rsum_ext. intros i Hi. apply sg_pair. lia. }
      rewrite !rsum_add in P. lra. }
    rewrite E, (rsum_first h (fun i => cnorm2 (Z i))) by lia. generalize (rsum (h - 1) (fun i => cnorm2 (Z (i + 1)%nat))). intros r.
    destruct (Z 0%nat) as [a b]. unfold cnorm2. creduce. ring.
  - intros k Hk. rewrite sG_lo by auto. split; [reflexivity|]. rewrite <- EN, sG_hi, cnorm2_conj by auto. reflexivity.
Qed.
Lemma sG_sub Z Z2 e : csub (sG Z e) (sG Z2 e) = sG (vsub Z Z2) e.
Proof.
  unfold sG, sg, vsub. destruct (e =? 0)%nat; [csimp; ring|]. destruct (e <? h)%nat; [|destruct (e =? h)%nat; [csimp; ring|]].
  - generalize (Uval N e). intros w. csimp; ring.
  - generalize (Uval N (N - e)). intros w. csimp; ring.
Qed.
(** the transform of a real vector, from the transform of half length *)
Lemma sG_transform kind X e : meth_inv kind = false -> (e < N)%nat ->
  transform kind N (re_of X) e = cscal (factor (meth_scaling kind) N) (sG (transform fwd0 h (fun p => (Re (X (2 * p)%nat), Re (X (2 * p + 1)%nat)))) e).
Proof.
  intros Hk He. unfold transform at 1. rewrite Hk. f_equal. set (x := re_of X).
  set (Z' := DFT false h (fun p => cadd (cmul (@c1 ROps) (x (2 * p)%nat)) (cmul ci (x (2 * p + 1)%nat)))).
  assert (EZ : forall k, transform fwd0 h (fun p => (Re (X (2 * p)%nat), Re (X (2 * p + 1)%nat))) k = Z' k).
  { intros k. unfold transform. cbn [meth_scaling factor meth_inv]. rewrite SixExact.cscal_1. apply DFT_ext. intros j _. unfold x, re_of. csimp; ring. }
  assert (Hg : forall k, (k <= h)%nat -> sg (transform fwd0 h (fun p => (Re (X (2 * p)%nat), Re (X (2 * p + 1)%nat)))) k = DFT false N x k).
  { intros k Hk'. unfold sg. rewrite !EZ. apply split_first; auto; try lia. apply re_of_real. }
  revert e He. apply sG_cases.
  - rewrite sG_0, EZ. apply (X0 N h EN ltac:(lia) x (re_of_real X)).
  - rewrite sG_h, EZ. apply (Xh N h EN ltac:(lia) x (re_of_real X)).
  - intros k Hk'. rewrite sG_lo, Hg by lia. reflexivity.
  - intros k Hk'. rewrite sG_hi, Hg by lia. symmetry. apply DFT_real_mirror; [lia|lia|apply re_of_real].
Qed.

(** what the rounding errors are measured against *)
Definition sB (Z : nat -> CC) (e : nat) : R :=
  if (e =? 0)%nat then 2 * cabs (Z 0%nat) else if (e <? h)%nat then 2 * cabs (Z e) + cabs (Z (h - e)%nat)
  else if (e =? h)%nat then 2 * cabs (Z 0%nat) else 2 * cabs (Z (N - e)%nat) + cabs (Z (h - (N - e))%nat).
Lemma sB_norm Z : nrm N (fun e => rc (sB Z e)) <= 3 * (sqrt 2 * nrm h Z).
Proof.
  apply nrm_le; [pose proof (nrm_pos h Z); pose proof (sqrt_pos 2); nra|].
  replace (3 * (sqrt 2 * nrm h Z) * (3 * (sqrt 2 * nrm h Z))) with (9 * (sqrt 2 * sqrt 2) * (nrm h Z * nrm h Z)) by ring.
  rewrite sqrt_def, nrm_sq by lra. rewrite EN, (rsum_half h _ (fun k => (2 * cabs (Z k) + cabs (Z (h - k)%nat)) * (2 * cabs (Z k) + cabs (Z (h - k)%nat)))); [|lia|].
  - assert (E : rsum (h - 1) (fun i => (2 * cabs (Z (i + 1)%nat) + cabs (Z (h - (i + 1))%nat)) * (2 * cabs (Z (i + 1)%nat) + cabs (Z (h - (i + 1))%nat)))
      <= 9 * rsum (h - 1) (fun i => cnorm2 (Z (i + 1)%nat))).
    { pose proof (rsum_mirror h (fun k => cnorm2 (Z k)) ltac:(lia)) as M2. cbv beta in M2.
      replace (9 * rsum (h - 1) (fun i => cnorm2 (Z (i + 1)%nat))) with (6 * rsum (h - 1) (fun i => cnorm2 (Z (i + 1)%nat)) + 3 * rsum (h - 1) (fun i => cnorm2 (Z (h - (i + 1))%nat))) by lra.
      rewrite <- !rsum_mul, <- rsum_add. apply rsum_le. intros i Hi. rewrite <- (cabs_sq (Z (i + 1)%nat)), <- (cabs_sq (Z (h - (i + 1))%nat)).
      set (p := cabs (Z (i + 1)%nat)). set (q := cabs (Z (h - (i + 1))%nat)). pose proof (Rle_0_sqr (p - q)) as S. unfold Rsqr in S. nra. }
    rewrite (rsum_first h (fun i => cnorm2 (Z i))) by lia. rewrite <- (cabs_sq (Z 0%nat)).
    assert (E0 : cnorm2 (rc (sB Z 0)) = 4 * (cabs (Z 0%nat) * cabs (Z 0%nat))) by (unfold sB, cnorm2; cbn [Nat.eqb]; creduce; ring).
    assert (E1 : cnorm2 (rc (sB Z h)) = 4 * (cabs (Z 0%nat) * cabs (Z 0%nat))).
    { unfold sB. destruct (Nat.eqb_spec h 0); [lia|]. rewrite Nat.ltb_irrefl, Nat.eqb_refl. unfold cnorm2; creduce; ring. }
    rewrite E0, E1. pose proof (cabs_pos (Z 0%nat)). nra.
  - intros k Hk. unfold sB. split.
    + destruct (Nat.eqb_spec k 0); [lia|]. destruct (Nat.ltb_spec k h); [|lia]. unfold cnorm2; creduce; ring.
    + destruct (Nat.eqb_spec (2 * h - k) 0); [lia|]. destruct (Nat.ltb_spec (2 * h - k) h); [lia|]. destruct (Nat.eqb_spec (2 * h - k) h); [lia|].
      replace (N - (2 * h - k))%nat with k by lia. unfold cnorm2; creduce; ring.
Qed.
End Split.

(** ** forward, rounded arithmetic *)
Section Fwd.
Variables (A : rounding) (bd : build).
Notation F := (fl A bd).
Notation ap := (approx A).
Notation tap := (tapx A).
Notation rd := (rnd A).

Lemma factor_pos s N : (0 < N)%nat -> 0 < factor s N.
Proof. intros HN. assert (0 < INR N) by (apply lt_0_INR; auto). destruct s; cbn [factor]; [lra| |]; apply Rinv_0_lt_compat; auto. apply sqrt_lt_R0; auto. Qed.
Lemma meth_sc N k : (0 < N)%nat -> sc N (meth_mode k) = factor (meth_scaling k) N.
Proof. apply sc_factor. Qed.
Lemma rf_mul_ap N kind a b z' z B : (0 < N)%nat -> (Z.of_nat N <= 2 ^ 31)%Z -> meth_inv kind = false -> ap a b z' z B ->
  ap (4 + a) b (@rf_mul F N kind z') (cscal (factor (meth_scaling kind) N) z) (factor (meth_scaling kind) N * B + (1 - factor (meth_scaling kind) N) * psi A).
Proof.
  intros HN H31 Hk Hz. pose proof (factor_pos (meth_scaling kind) N HN) as Hp. pose proof (PropAccuracy.factor_range kind N HN) as Hp1. pose proof (psi0 A) as Ps.
  assert (G : forall c, rel A 3 c (factor (meth_scaling kind) N) -> ap (4 + a) b (@cscal F c z') (cscal (factor (meth_scaling kind) N) z) (factor (meth_scaling kind) N * B + (1 - factor (meth_scaling kind) N) * psi A)).
  { intros c Hc. apply (ap_scal A bd 3 a b _ _ _ _ B); auto; rewrite Rabs_right by lra; nra. }
  destruct kind; try discriminate Hk; [apply G, (rel_rlen A N HN H31)| |apply G, (rel_rsqrt A N HN H31)|apply G, (rel_rlen A N HN H31)].
  cbn [meth_scaling factor]. rewrite SixExact.cscal_1. eapply ap_mono; [exact Hz|lia|lia|lra].
Qed.
Lemma rf_div_ap N kind v' v k : (0 < N)%nat -> (Z.of_nat N <= 2 ^ 31)%Z -> meth_inv kind = false -> relp A k v' v ->
  relp A (3 + k) (@rf_div F N kind v') (factor (meth_scaling kind) N * v).
Proof.
  intros HN H31 Hk Hv. assert (HN' : 1 <= INR N) by (change 1 with (INR 1); apply le_INR; lia).
  assert (HS : 1 <= sqrt (INR N)) by (rewrite <- sqrt_1 at 1; apply sqrt_le_1_alt; auto).
  assert (L : forall x, 1 <= x -> Rabs (/ x) <= 1).
  { intros x Hx. rewrite Rabs_right by (apply Rle_ge, Rlt_le, Rinv_0_lt_compat; lra). rewrite <- Rinv_1. apply Rinv_le_contravar; lra. }
  assert (E1 : relp A (3 + k) (rd (v' / rd (IZR (Z.of_nat N)))) (/ INR N * v)).
  { rewrite int_ok by auto. unfold Rdiv. rewrite Rmult_comm. apply (relp_mono A (S k)); [lia|]. apply relp_rnd. apply (relp_mul A 0 k); [apply rel_0|auto|exact Hv]. }
  assert (E2 : relp A (3 + k) (rd (v' / rd (sqrt (rd (IZR (Z.of_nat N)))))) (/ sqrt (INR N) * v)).
  { rewrite int_ok by auto. unfold Rdiv. rewrite Rmult_comm. replace (3 + k)%nat with (S (2 + k)) by lia. apply relp_rnd.
    apply (relp_mul A 2 k); [|auto|exact Hv]. apply rel_inv; [lra|]. apply rel_1. apply big_sqrt; auto. }
  destruct kind; try discriminate Hk; cbn [meth_scaling factor]; auto.
  change (relp A (3 + k) v' (1 * v)). rewrite Rmult_1_l. eapply relp_mono; [|exact Hv]. lia.
Qed.
Lemma rval_ap k v' v B : relp A k v' v -> Rabs v + psi A <= B -> ap k 0 (@rval F v') (rc v) B.
Proof.
  intros Hv HB. assert (HE : cabs (rc v) = Rabs v).
  { unfold cabs, cnorm2. creduce. replace (v * v + 0 * 0) with (Rsqr v) by (unfold Rsqr; ring). apply sqrt_Rsqr_abs. }
  split; [rewrite HE; auto|]. eapply Rle_trans; [apply (cabs_relp A k)|].
  - exact Hv.
  - change (relp A k (rd (IZR 0)) 0). rewrite rd0. apply (relp_mono A 0); [lia|apply rel_relp, rel_0].
  - rewrite HE. unfold EE. cbn [pow]. rewrite Rmult_1_r. apply Rmult_le_compat_l; auto. pose proof (pow_ge1 (1 + uu A) k (U1 A)). lra.
Qed.
Lemma re_abs (z : CC) : Rabs (Re z) <= cabs z.
Proof. destruct z as [a b]. cbn [Re fst]. rewrite <- sqrt_Rsqr_abs. apply sqrt_le_1_alt. unfold cnorm2, Rsqr. creduce. nra. Qed.
Lemma im_abs (z : CC) : Rabs (Im z) <= cabs z.
Proof. destruct z as [a b]. cbn [Im snd]. rewrite <- sqrt_Rsqr_abs. apply sqrt_le_1_alt. unfold cnorm2, Rsqr. creduce. nra. Qed.

Lemma rf_out_ap N h kind (Z : nat -> CC) e : N = (2 * h)%nat -> (2 <= h)%nat -> (Z.of_nat N <= 2 ^ 31)%Z -> meth_inv kind = false -> (e < N)%nat ->
  ap 11 1 (@rf_out F N kind (@U_T F N) Z e) (cscal (factor (meth_scaling kind) N) (sG N h Z e)) (factor (meth_scaling kind) N * sB N h Z e + 3 * psi A).
Proof.
  intros EN Hh H31 Hk He. assert (HN : (0 < N)%nat) by lia. assert (EN2 : (N / 2 = h)%nat) by (apply div_2_eq; auto).
  pose proof (factor_pos (meth_scaling kind) N HN) as Hf. pose proof (PropAccuracy.factor_range kind N HN) as Hf1. pose proof (psi0 A) as Ps. set (f := factor (meth_scaling kind) N) in *.
  assert (Hend : forall v' v, relp A 1 v' v -> Rabs v <= 2 * cabs (Z 0%nat) -> ap 11 1 (@rval F (@rf_div F N kind v')) (cscal f (rc v)) (f * (2 * cabs (Z 0%nat)) + 3 * psi A)).
  { intros v' v Hv HB. apply (ap_mono A (3 + 1) 0 _ _ _ _ (f * (2 * cabs (Z 0%nat)) + psi A)); try lia; try lra.
    replace (@cscal ROps f (rc v)) with (rc (f * v)) by (csimp; ring). apply rval_ap; [apply rf_div_ap; auto|].
    rewrite Rabs_mult, (Rabs_right f) by lra. apply Rplus_le_compat_r, Rmult_le_compat_l; lra. }
  assert (Hhalf : forall k, (0 < k < h)%nat -> ap 11 1 (@rf_half F N kind (@U_T F N) Z k) (cscal f (sg N h Z k)) (f * (2 * cabs (Z k) + cabs (Z (h - k)%nat)) + 3 * psi A)).
  { intros k Hk'. apply (ap_mono A 11 1 11 1 _ _ (f * (2 * cabs (Z k) + cabs (Z (h - k)%nat) + 3 * psi A) + (1 - f) * psi A)); [|lia|lia|nra].
    unfold rf_half. cbv zeta. rewrite EN2. destruct (h - k <=? N / 4)%nat.
    - unfold rf_second. cbv zeta. rewrite EN2. replace (sg N h Z k) with (sg N h Z (h - (h - k))) by (f_equal; lia).
      rewrite <- sg_second by (auto; lia). change 11%nat with (4 + 7)%nat. apply rf_mul_ap; auto. apply ap_conj. replace (h - (h - k))%nat with k by lia.
      set (b := cconj (Z k)). set (a := Z (h - k)%nat).
      apply (ap_mono A 7 1 _ _ _ _ ((cabs b + psi A) + ((cabs a + psi A) + (cabs b + psi A)))); try lia; [|unfold b; rewrite cabs_conj; lra].
      change 7%nat with (1 + 6)%nat. apply ap_add; [apply (ap_mono A 0 0 _ _ _ _ _ _ (ap_id A _)); first [lia | apply Rle_refl]|].
      refine (ap_mul A bd 2 1 1 0 _ _ _ _ _ (U_ap A bd N _ HN H31 _) _); [lia|]. apply (ap_sub A bd 0 0); apply ap_id.
    - unfold rf_first. cbv zeta. rewrite EN2. unfold sg. change 11%nat with (4 + 7)%nat. apply rf_mul_ap; auto.
      set (a := Z k). set (b := cconj (Z (h - k)%nat)).
      apply (ap_mono A 7 1 _ _ _ _ ((cabs a + psi A) + ((cabs a + psi A) + (cabs b + psi A)))); try lia; [|unfold b; rewrite cabs_conj; lra].
      change 7%nat with (1 + 6)%nat. apply ap_sub; [apply (ap_mono A 0 0 _ _ _ _ _ _ (ap_id A _)); first [lia | apply Rle_refl]|].
      refine (ap_mul A bd 2 1 1 0 _ _ _ _ _ (U_ap A bd N _ HN H31 _) _); [lia|]. apply (ap_sub A bd 0 0); apply ap_id. }
  unfold rf_out. cbv zeta. rewrite EN2. unfold sG, sB. pose proof (re_abs (Z 0%nat)) as HR. pose proof (im_abs (Z 0%nat)) as HI.
  destruct (Nat.eqb_spec e 0); [|destruct (Nat.ltb_spec e h); [|destruct (Nat.eqb_spec e h)]].
  - apply Hend; [apply relp_1|]. eapply Rle_trans; [apply Rabs_triang|]. lra.
  - apply Hhalf. lia.
  - apply Hend; [apply relp_1|]. unfold Rminus. eapply Rle_trans; [apply Rabs_triang|]. rewrite Rabs_Ropp. lra.
  - replace (@cscal ROps f (cconj (sg N h Z (N - e)))) with (@cconj ROps (@cscal ROps f (sg N h Z (N - e)))) by (csimp; ring). apply ap_conj. apply Hhalf. lia.
Qed.

(** a step with error (E2 - 1) * K on top of data with error E1 *)
Lemma two_steps E1 E2 c K d x p q P : 1 <= E1 -> 1 <= E2 -> 0 <= c -> 0 <= x -> 0 <= d -> 0 <= q -> d <= (E1 - 1) * (x + p) -> c * p <= P -> q <= P ->
  (E2 - 1) * (INR K * (c * (x + d) + q)) + c * d <= (E2 ^ K * E1 - 1) * (c * x + P).
Proof.
  intros H1 H2 Hc Hx Hd0 Hq0 Hd Hp Hq. assert (Bn : INR K * (E2 - 1) <= E2 ^ K - 1).
  { pose proof (bern (E2 - 1) K ltac:(lra)) as B. replace (1 + (E2 - 1)) with E2 in B by ring. lra. }
  pose proof (pos_INR K) as HK. assert (HP : 0 <= P) by lra.
  assert (G2 : c * d <= (E1 - 1) * (c * x + P)).
  { apply Rle_trans with (c * ((E1 - 1) * (x + p))); [apply Rmult_le_compat_l; auto|]. replace (c * ((E1 - 1) * (x + p))) with ((E1 - 1) * (c * x + c * p)) by ring.
    apply Rmult_le_compat_l; lra. }
  assert (G : (E2 - 1) * (INR K * (c * (x + d) + q)) <= (E2 ^ K - 1) * (E1 * (c * x + P))).
  { replace ((E2 - 1) * (INR K * (c * (x + d) + q))) with ((INR K * (E2 - 1)) * (c * (x + d) + q)) by ring. apply Rmult_le_compat; auto.
    - apply Rmult_le_pos; lra.
    - assert (0 <= c * (x + d)) by (apply Rmult_le_pos; lra). lra.
    - lra. }
  lra.
Qed.
Lemma sqrt_half N : (4 <= N)%nat -> 2 * sqrt (INR N) <= INR N.
Proof.
  intros HN. assert (H4 : 4 <= INR N) by (change 4 with (IZR (Z.of_nat 4)); rewrite <- INR_IZR_INZ; apply le_INR; auto).
  pose proof (sqrt_pos (INR N)) as P. pose proof (sqrt_sqrt (INR N) ltac:(lra)) as S. assert (2 <= sqrt (INR N)) by (apply sq_le; [auto|lra]). nra.
Qed.
Lemma sB_pos N h Z e : 0 <= sB N h Z e.
Proof.
  assert (C : forall i, 0 <= cabs (Z i)) by (intros; apply cabs_pos). unfold sB.
  pose proof (C 0%nat). pose proof (C e). pose proof (C (h - e)%nat). pose proof (C (N - e)%nat). pose proof (C (h - (N - e))%nat).
  destruct (e =? 0)%nat; [lra|]. destruct (e <? h)%nat; [lra|]. destruct (e =? h)%nat; lra.
Qed.
Lemma rfft_F_err1 N kind qs (X : nat -> CC) : real_length N -> meth_inv kind = false -> Forall prime qs -> prodl qs = (N / 2)%nat ->
  nrm N (vsub (@rfft_F F N kind X) (transform kind N (re_of X))) <= (EE A (36 + suml ca qs) (3 + suml cb qs) - 1) * (nrm N (transform kind N (re_of X)) + psi A * INR N).
Proof.
  intros (EN & H30 & Hv) Hk Hq1 Hq2. set (h := (N / 2)%nat) in *. assert (Hh : (2 <= h)%nat) by (destruct Hv; auto).
  assert (HN : (0 < N)%nat) by lia. assert (H31 : (Z.of_nat N <= 2 ^ 31)%Z) by lia. pose proof (psi0 A) as Ps.
  set (Z := transform fwd0 h (rf_z X)). set (Z' := @fft0_F F h fwd0 (rf_z X) : nat -> CC).
  assert (H1 : res_err A h fwd0 (EE A (3 + suml ca qs) (suml cb qs)) (rf_z X) Z') by (apply fft0_F_err; auto). unfold res_err in H1. fold Z in H1.
  pose proof (factor_pos (meth_scaling kind) N HN) as Hf. pose proof (PropAccuracy.factor_range kind N HN) as Hf1. set (f := factor (meth_scaling kind) N) in *.
  set (M := fun e : nat => @cscal ROps f (sG N h Z' e)). set (T0 := fun e : nat => @cscal ROps f (sG N h Z e)).
  assert (ET : forall e, (e < N)%nat -> transform kind N (re_of X) e = T0 e) by (intros e He; apply (sG_transform N h EN Hh kind X e Hk He)).
  rewrite (nrm_ext N (transform kind N (re_of X)) T0) by auto. rewrite (nrm_ext N (vsub _ (transform kind N (re_of X))) (vsub (@rfft_F F N kind X) T0)) by (intros e He; unfold vsub; rewrite ET; auto).
  assert (ENT : nrm N T0 = f * sqrt 2 * nrm h Z) by (unfold T0; rewrite nrm_scal, sG_norm, Rabs_right by (auto; lra); ring). rewrite ENT.
  eapply Rle_trans; [apply (nrm_tri3 _ _ M)|].
  assert (G2 : nrm N (vsub M T0) = f * sqrt 2 * nrm h (vsub Z' Z)).
  { rewrite (nrm_ext N _ (fun e : nat => @cscal ROps f (sG N h (vsub Z' Z) e))); [rewrite nrm_scal, sG_norm, Rabs_right by (auto; lra); ring|].
    intros e He. unfold vsub at 1, M, T0. rewrite <- sG_sub. generalize (sG N h Z' e) (sG N h Z e). intros a b. csimp; ring. }
  rewrite G2. set (E2 := EE A 11 1). pose proof (EE_ge1 A 11 1) as HE. fold E2 in HE.
  assert (G1 : nrm N (vsub (@rfft_F F N kind X) M) <= (E2 - 1) * (INR 3 * (f * sqrt 2 * (nrm h Z + nrm h (vsub Z' Z)) + psi A * sqrt (INR N)))).
  { assert (P3 : 0 <= 3 * psi A) by lra. apply Rle_trans with ((E2 - 1) * nrm N (hat (3 * psi A) f (fun e => rc (sB N h Z' e)))).
    - apply nrm_rel; [lra|]. intros e He. unfold vsub, M. rewrite (cabs_hat _ P3) by lra.
      destruct (rf_out_ap N h kind Z' e EN Hh H31 Hk He) as [_ G]. eapply Rle_trans; [exact G|]. apply Rmult_le_compat_l; [unfold E2 in *; lra|].
      apply Rplus_le_compat_r. apply Rmult_le_compat_l; [lra|].
      eapply Rle_trans; [apply Rle_abs|]. apply (re_abs (rc (sB N h Z' e))).
    - apply Rmult_le_compat_l; [lra|]. eapply Rle_trans; [apply (nrm_hat _ P3); lra|]. unfold flo.
      assert (G3 : nrm N (fun e => rc (sB N h Z' e)) <= 3 * (sqrt 2 * (nrm h Z + nrm h (vsub Z' Z)))).
      { eapply Rle_trans; [apply (sB_norm N h EN Hh)|]. apply Rmult_le_compat_l; [lra|]. apply Rmult_le_compat_l; [apply sqrt_pos|]. apply nrm_near. }
      apply (Rmult_le_compat_l f) in G3; [|lra]. replace (INR 3) with 3 by (cbn [INR]; ring). lra. }
  eapply Rle_trans; [apply Rplus_le_compat_r; exact G1|]. eapply Rle_trans; [apply (two_steps (EE A (3 + suml ca qs) (suml cb qs)) E2 _ 3 _ _ (psi A * INR h) _ (psi A * INR N))|].
  - apply EE_ge1.
  - apply EE_ge1.
  - apply Rmult_le_pos; [lra|apply sqrt_pos].
  - apply nrm_pos.
  - apply nrm_pos.
  - apply Rmult_le_pos; [auto|apply sqrt_pos].
  - exact H1.
  - assert (ENR : INR N = 2 * INR h) by (rewrite EN, mult_INR; cbn [INR]; ring). rewrite ENR. pose proof (pos_INR h) as Ph. pose proof (sqrt2_15) as S2. pose proof (sqrt_pos 2) as S0.
    assert (0 <= f * sqrt 2 <= 2) by nra. assert (0 <= psi A * INR h) by (apply Rmult_le_pos; auto). nra.
  - apply Rmult_le_compat_l; [auto|]. pose proof (sqrt_half N ltac:(lia)). pose proof (sqrt_pos (INR N)). lra.
  - pose proof (pos_INR N). assert (0 <= psi A * INR N) by (apply Rmult_le_pos; auto). assert (0 <= f * sqrt 2 * nrm h Z) by (apply Rmult_le_pos; [apply Rmult_le_pos; [lra|apply sqrt_pos]|apply nrm_pos]).
    apply Rmult_le_compat_r; [lra|].
    apply Rplus_le_compat_r. unfold E2. rewrite EE_pow, EE_mul. apply EE_mono; lia.
Qed.
Lemma nrm_psi N Y : 0 <= nrm N Y + psi A * INR N.
Proof. pose proof (nrm_pos N Y). pose proof (psi0 A). pose proof (pos_INR N). assert (0 <= psi A * INR N) by (apply Rmult_le_pos; auto). lra. Qed.
Lemma half_primes N ps : real_length N -> Forall prime ps -> prodl ps = N ->
  exists qs, Forall prime qs /\ prodl qs = (N / 2)%nat /\ suml ca ps = (60 + suml ca qs)%nat /\ suml cb ps = (15 + suml cb qs)%nat.
Proof.
  intros (EN & _) H1 H2. destruct (prime_split 2 ps (N / 2) prime_2 H1) as (qs & HP & Hq1 & Hq2); [congruence|].
  exists qs. split; auto. split; auto. rewrite (suml_perm ca _ _ HP), (suml_perm cb _ _ HP). split; reflexivity.
Qed.
Lemma rfft_F_err N kind ps (X : nat -> CC) : real_length N -> meth_inv kind = false -> Forall prime ps -> prodl ps = N ->
  nrm N (vsub (@rfft_F F N kind X) (transform kind N (re_of X))) <= (EE A (3 + suml ca ps) (suml cb ps) - 1) * (nrm N (transform kind N (re_of X)) + psi A * INR N).
Proof.
  intros HN Hk H1 H2. destruct (half_primes N ps HN H1 H2) as (qs & Hq1 & Hq2 & -> & ->).
  eapply Rle_trans; [apply (rfft_F_err1 N kind qs); auto|]. apply Rmult_le_compat_r; [apply nrm_psi|]. apply Rplus_le_compat_r. apply EE_mono; lia.
Qed.
End Fwd.

(** ** inverse *)
Section Inv.
Variables (A : rounding) (bd : build).
Notation F := (fl A bd).
Notation ap := (approx A).
Notation tap := (tapx A).
Notation rd := (rnd A).

Lemma ri_g_pos N kind : (0 < N)%nat -> 0 < ri_g N kind.
Proof. intros HN. assert (0 < sqrt (INR N)) by (apply sqrt_lt_R0, lt_0_INR; auto). destruct kind; cbn [ri_g]; try lra. apply Rdiv_lt_0_compat; lra. Qed.
Lemma ri_g_2 N kind : (0 < N)%nat -> ri_g N kind <= 2.
Proof.
  intros HN. pose proof (sqrt_ge1 N HN) as H. destruct kind; cbn [ri_g]; try lra. unfold Rdiv. assert (/ sqrt (INR N) <= 1) by (rewrite <- Rinv_1; apply Rinv_le_contravar; lra). lra.
Qed.
Lemma ri_mul_ap N kind a b z' z B : (0 < N)%nat -> (Z.of_nat N <= 2 ^ 31)%Z -> ap a b z' z B ->
  ap (4 + a) b (@ri_mul F N kind z') (cscal (ri_g N kind) z) (ri_g N kind * B + psi A).
Proof.
  intros HN H31 Hz. pose proof (ri_g_pos N kind HN) as Hp. pose proof (psi0 A) as Ps. rewrite <- (Rabs_right (ri_g N kind)) at 2 by lra.
  assert (H1 : ap (4 + a) b z' (@cscal ROps 1 z) (Rabs 1 * B + psi A)).
  { rewrite SixExact.cscal_1, Rabs_R1, Rmult_1_l. eapply ap_mono; [exact Hz|lia|lia|lra]. }
  assert (S : forall c g, rel A 3 c g -> ap (4 + a) b (@cscal F c z') (@cscal ROps g z) (Rabs g * B + psi A)).
  { intros c g Hc. pose proof (Rabs_pos g). apply (ap_scal A bd 3 a b _ _ _ _ B); auto; nra. }
  assert (H2 : ap (4 + a) b (@cscal F (@s2 F) z') (@cscal ROps 2 z) (Rabs 2 * B + psi A)).
  { apply S. change (rel A 3 (rd (IZR 2)) 2). rewrite two_ok. apply (rel_mono A 0); [lia|apply rel_0]. }
  destruct kind; cbn [ri_mul ri_g]; auto.
  apply S. change (rel A 3 (rd (rd (IZR 2) / rd (sqrt (rd (IZR (Z.of_nat N)))))) (2 / sqrt (INR N))). rewrite two_ok, int_ok by auto.
  apply rel_rnd; [lia| |].
  - destruct (big_rsqrt N HN H31) as [E|E]; [|right; unfold Rdiv; rewrite Rabs_mult, (Rabs_right 2) by lra; lra].
    left. unfold Rdiv. rewrite E. ring.
  - apply rel_mul_l. apply rel_inv; [apply sqrt_lt_R0, lt_0_INR; auto|]. apply rel_1, big_sqrt; auto.
Qed.
(** the spectrum may itself be approximate *)
Lemma ri_z_ap N h kind (X' X : nat -> CC) a b k : N = (2 * h)%nat -> (2 <= h)%nat -> (Z.of_nat N <= 2 ^ 31)%Z -> (k < h)%nat ->
  (forall j, (j <= h)%nat -> ap a b (X' j) (X j) (cabs (X j) + psi A)) ->
  ap (11 + a) (1 + b) (@ri_z F N kind (@U_T F N) X' k) (cscal (ri_g N kind) (zin N h X k)) (ri_g N kind * (2 * cabs (X k) + cabs (X (h - k)%nat)) + 7 * psi A).
Proof.
  intros EN Hh H31 Hk HX. assert (HN : (0 < N)%nat) by lia. assert (EN2 : (N / 2 = h)%nat) by (apply div_2_eq; auto).
  pose proof (psi0 A) as Ps. pose proof (ri_g_pos N kind HN) as Hg0. pose proof (ri_g_2 N kind HN) as Hg2.
  apply (ap_mono A (11 + a) (1 + b) _ _ _ _ (ri_g N kind * (2 * cabs (X k) + cabs (X (h - k)%nat) + 3 * psi A) + psi A)); [|lia|lia|nra].
  unfold ri_z. cbv zeta. rewrite EN2. unfold zin. change (11 + a)%nat with (4 + (7 + a))%nat. apply ri_mul_ap; auto. apply ap_conj.
  pose proof (HX k ltac:(lia)) as H1. pose proof (HX (h - k)%nat ltac:(lia)) as H2. apply (ap_conj A bd) in H1. 
  apply (ap_mono A (7 + a) (1 + b) _ _ _ _ ((cabs (X k) + psi A) + ((cabs (X k) + psi A) + (cabs (X (h - k)%nat) + psi A)))); try lia; [|lra].
  change (7 + a)%nat with (1 + (6 + a))%nat. apply ap_sub; [eapply ap_mono; [exact H1| | |]; first [lia | apply Rle_refl]|].
  refine (ap_mul A bd 2 1 (1 + a) b _ _ _ _ _ (U_ap A bd N _ HN H31 _) _); [lia|]. apply (ap_sub A bd a b); auto.
Qed.

Lemma ri_out_F (Z : nat -> CC) e : @ri_out F Z e = @ri_out ROps Z e.
Proof. unfold ri_out, rval. change (@s0 F) with (rd (IZR 0)). rewrite rd0. reflexivity. Qed.
Lemma ri_out_sub (Z Z2 : nat -> CC) e : csub (@ri_out ROps Z e) (@ri_out ROps Z2 e) = @ri_out ROps (vsub Z Z2) e.
Proof. unfold ri_out, rval, vsub. destruct (Nat.even e); csimp; ring. Qed.
Lemma ri_out_norm h (Z : nat -> CC) : nrm (2 * h) (@ri_out ROps Z) = nrm h Z.
Proof.
  unfold nrm. f_equal. rewrite DctExact.rsum_split2, <- rsum_add. apply rsum_ext. intros p Hp. unfold ri_out.
  replace (Nat.even (2 * p)) with true by (symmetry; apply Nat.even_spec; exists p; lia).
  replace (Nat.even (2 * p + 1)) with false by (rewrite Nat.even_add; replace (Nat.even (2 * p)) with true by (symmetry; apply Nat.even_spec; exists p; lia); reflexivity).
  replace (2 * p / 2)%nat with p by (symmetry; apply div_2_eq; auto). replace ((2 * p + 1) / 2)%nat with p by (rewrite Nat.mul_comm, Nat.div_add_l by lia; cbn; lia).
  destruct (Z p) as [a b]. unfold rval, cnorm2. creduce. ring.
Qed.

Section Z.
Variables (N h : nat) (X : nat -> CC).
Hypothesis EN : N = (2 * h)%nat.
Hypothesis Hh : (2 <= h)%nat.
Hypothesis X0r : Im (X 0%nat) = 0.
Hypothesis Xhr : Im (X h) = 0.
Lemma hermit_sq : rsum N (fun k => cnorm2 (hermit N X k)) = cnorm2 (X 0%nat) + cnorm2 (X h) + 2 * rsum (h - 1) (fun i => cnorm2 (X (i + 1)%nat)).
Proof.
  assert (EN2 : (N / 2 = h)%nat) by (apply div_2_eq; auto).
  rewrite EN at 1. rewrite (rsum_half h _ (fun k => cnorm2 (X k))); [| lia |].
  - unfold hermit. rewrite EN2, Nat.leb_refl. reflexivity.
  - intros k Hk. unfold hermit. rewrite EN2. destruct (Nat.leb_spec k h); [|lia]. destruct (Nat.leb_spec (2 * h - k) h); [lia|].
    rewrite cnorm2_conj. split; auto. do 2 f_equal. lia.
Qed.
Lemma zin_norm : 2 * (nrm h (zin N h X) * nrm h (zin N h X)) = rsum N (fun k => cnorm2 (hermit N X k)).
Proof.
  rewrite nrm_sq. assert (Hp : 0 < INR h) by (apply lt_0_INR; lia).
  pose proof (Plancherel true h (fun k => cmul (rc 2) (zin N h X k)) ltac:(lia)) as P1.
  pose proof (Plancherel true N (hermit N X) ltac:(lia)) as P2.
  assert (E1 : rsum h (fun k => cnorm2 (DFT true h (fun k => cmul (rc 2) (zin N h X k)) k)) = rsum N (fun k => cnorm2 (DFT true N (hermit N X) k))).
  { replace (rsum N) with (rsum (2 * h)) by (rewrite EN; reflexivity). rewrite DctExact.rsum_split2, <- rsum_add. apply rsum_ext. intros p Hpp. rewrite (zin_DFT N h EN ltac:(lia) X Xhr).
    pose proof (Y_real N h EN ltac:(lia) X X0r Xhr) as HR. pose proof (HR (2 * p)%nat) as A1. pose proof (HR (2 * p + 1)%nat) as A2. revert A1 A2.
    generalize (DFT true N (hermit N X) (2 * p)) (DFT true N (hermit N X) (2 * p + 1)). intros [a b] [c d] A1 A2. apply (f_equal snd) in A1, A2. cbn in A1, A2.
    assert (b = 0) as -> by lra. assert (d = 0) as -> by lra. unfold cnorm2. creduce. ring. }
  rewrite E1, P2 in P1. rewrite EN in P1 at 1. rewrite mult_INR in P1. cbn [INR] in P1.
  rewrite (rsum_ext h (fun j => cnorm2 (cmul (rc 2) (zin N h X j))) (fun j => 4 * cnorm2 (zin N h X j))) in P1.
  - rewrite rsum_mul in P1. nra.
  - intros j _. rewrite cnorm2_mul. f_equal. unfold cnorm2. creduce. ring.
Qed.
Lemma zB_norm : nrm h (fun k => rc (2 * cabs (X k) + cabs (X (h - k)%nat))) <= 4 * nrm h (zin N h X).
Proof.
  pose proof (nrm_pos h (zin N h X)) as HP. apply nrm_le; [lra|]. pose proof zin_norm as HZ. rewrite hermit_sq in HZ.
  apply Rle_trans with (6 * (cnorm2 (X 0%nat) + cnorm2 (X h) + 2 * rsum (h - 1) (fun i => cnorm2 (X (i + 1)%nat)))); [|rewrite <- HZ; nra].
  rewrite (rsum_first h) by lia. 
  assert (E : rsum (h - 1) (fun i => cnorm2 (rc (2 * cabs (X (i + 1)%nat) + cabs (X (h - (i + 1))%nat)))) <= 9 * rsum (h - 1) (fun i => cnorm2 (X (i + 1)%nat))).
  { pose proof (rsum_mirror h (fun k => cnorm2 (X k)) ltac:(lia)) as M2. cbv beta in M2.
    replace (9 * rsum (h - 1) (fun i => cnorm2 (X (i + 1)%nat))) with (6 * rsum (h - 1) (fun i => cnorm2 (X (i + 1)%nat)) + 3 * rsum (h - 1) (fun i => cnorm2 (X (h - (i + 1))%nat))) by lra.
    rewrite <- !rsum_mul, <- rsum_add. apply rsum_le. intros i Hi. rewrite <- (cabs_sq (X (i + 1)%nat)), <- (cabs_sq (X (h - (i + 1))%nat)).
    set (p := cabs (X (i + 1)%nat)). set (q := cabs (X (h - (i + 1))%nat)). pose proof (Rle_0_sqr (p - q)) as S. unfold Rsqr in S. unfold cnorm2. creduce. nra. }
  assert (E0 : cnorm2 (rc (2 * cabs (X 0%nat) + cabs (X (h - 0)%nat))) <= 6 * cnorm2 (X 0%nat) + 3 * cnorm2 (X h)).
  { rewrite Nat.sub_0_r. rewrite <- (cabs_sq (X 0%nat)), <- (cabs_sq (X h)). set (p := cabs (X 0%nat)). set (q := cabs (X h)). pose proof (Rle_0_sqr (p - q)) as S. unfold Rsqr in S. unfold cnorm2. creduce. nra. }
  pose proof (cnorm2_pos (X 0%nat)). pose proof (cnorm2_pos (X h)).
  assert (0 <= rsum (h - 1) (fun i => cnorm2 (X (i + 1)%nat))) by (apply rsum_pos; intros; apply cnorm2_pos). lra.
Qed.
End Z.

Lemma rfft_G_err1 N kind qs a b (X' X : nat -> CC) : real_length N -> meth_inv kind = true -> Im (X 0%nat) = 0 -> Im (X (N / 2)%nat) = 0 -> Forall prime qs -> prodl qs = (N / 2)%nat ->
  (forall j, (j <= N / 2)%nat -> ap a b (X' j) (X j) (cabs (X j) + psi A)) ->
  nrm N (vsub (@rfft_G F N kind X') (transform kind N (hermit N X))) <= (EE A (3 + suml ca qs + 4 * (11 + a)) (suml cb qs + 4 * (1 + b)) - 1) * (nrm N (transform kind N (hermit N X)) + psi A * INR N).
Proof.
  intros HR Hk H0 Hh0 Hq1 Hq2 HX'. pose proof (rfft_G_exact N kind X) as HX. destruct HR as (EN & H30 & Hv) eqn:EHR. clear EHR. 
  assert (ER : forall e, (e < N)%nat -> transform kind N (hermit N X) e = @rfft_G ROps N kind X e) by (intros e He; symmetry; apply HX; auto). clear HX.
  unfold rfft_G in *. set (h := (N / 2)%nat) in *. assert (Hh : (2 <= h)%nat) by (destruct Hv; auto).
  assert (HN : (0 < N)%nat) by lia. assert (H31 : (Z.of_nat N <= 2 ^ 31)%Z) by lia.
  set (rk := ri_kind kind). set (z' := @ri_z F N kind (@U_T F N) X' : nat -> CC). set (g := ri_g N kind).
  set (z := fun k : nat => @cscal ROps g (zin N h X k)). pose proof (ri_g_pos N kind HN) as Hg. fold g in Hg.
  set (Z' := @fft0_F F h rk z' : nat -> CC). set (Zt := transform rk h z'). set (Z := transform rk h z).
  assert (H1 : res_err A h rk (EE A (3 + suml ca qs) (suml cb qs)) z' Z') by (apply fft0_F_err; auto). unfold res_err in H1. fold Zt in H1.
  assert (EZ : forall e, (e < N)%nat -> transform kind N (hermit N X) e = @ri_out ROps Z e).
  { intros e He. rewrite ER by auto. unfold ri_out. pose proof (Nat.div_mod e 2 ltac:(lia)). rewrite ApiExact.fft0_F_exact by (auto; lia). fold rk.
    assert (EQ : transform rk h (@ri_z ROps N kind (@U_T ROps N) X) (e / 2) = Z (e / 2)%nat).
    { unfold Z. apply ComplexThms.transform_ext. intros j Hj. unfold ri_z, z. fold h. cbv zeta. rewrite U_exact by lia. rewrite ri_mul_g. reflexivity. }
    rewrite EQ. reflexivity. }
  rewrite (nrm_ext N (transform kind N (hermit N X)) (@ri_out ROps Z)) by auto.
  rewrite (nrm_ext N (vsub _ (transform kind N (hermit N X))) (@ri_out ROps (vsub Z' Z))).
  2:{ intros e He. unfold vsub at 1. rewrite EZ by auto. fold rk z' Z'. rewrite ri_out_F. apply ri_out_sub. }
  assert (EQn : forall V : nat -> CC, nrm N V = nrm (2 * h) V) by (intros V; f_equal; exact EN). rewrite !EQn, !ri_out_norm.
  eapply Rle_trans; [apply (nrm_tri3 _ _ Zt)|].
  pose proof (psi0 A) as Ps. assert (ENR : INR N = 2 * INR h) by (rewrite EN, mult_INR; cbn [INR]; ring). pose proof (pos_INR h) as Phh.
  assert (HD : nrm h (vsub Zt Z) <= (EE A (11 + a) (1 + b) - 1) * (INR 4 * (nrm h Z + psi A * INR N))).
  { assert (Hfh : (0 < h)%nat) by lia. pose proof (factor_pos (meth_scaling rk) h Hfh) as Hf. pose proof (sqrt_pos (INR h)) as Hs.
    rewrite (nrm_ext h (vsub Zt Z) (transform rk h (fun j => csub (z' j) (z j)))) by (intros i Hi; unfold vsub, Zt, Z; apply PropAccuracy.transform_sub).
    unfold Z. rewrite !PropAccuracy.nrm_transform by auto.
    pose proof (EE_ge1 A (11 + a) (1 + b)) as HE. pose proof (PropAccuracy.factor_range rk h Hfh) as Hf1. set (fh := factor (meth_scaling rk) h) in *.
    assert (P7 : 0 <= 7 * psi A) by lra.
    assert (HZ : nrm h (fun j => @csub ROps (z' j) (z j)) <= (EE A (11 + a) (1 + b) - 1) * (4 * nrm h z + 7 * psi A * sqrt (INR h))).
    { apply Rle_trans with ((EE A (11 + a) (1 + b) - 1) * nrm h (hat (7 * psi A) g (fun k => rc (2 * cabs (X k) + cabs (X (h - k)%nat))))).
      - apply nrm_rel; [lra|]. intros k Hk'. rewrite (cabs_hat _ P7) by lra. destruct (ri_z_ap N h kind X' X a b k EN Hh H31 Hk' HX') as [_ G]. eapply Rle_trans; [exact G|].
        apply Rmult_le_compat_l; [lra|]. apply Rplus_le_compat_r. apply Rmult_le_compat_l; [fold g; lra|]. eapply Rle_trans; [apply Rle_abs|]. apply (re_abs (rc (2 * cabs (X k) + cabs (X (h - k)%nat)))).
      - apply Rmult_le_compat_l; [lra|]. eapply Rle_trans; [apply (nrm_hat _ P7); lra|]. unfold flo. apply Rplus_le_compat_r.
        unfold z. rewrite nrm_scal, Rabs_right by lra. replace (4 * (g * nrm h (zin N h X))) with (g * (4 * nrm h (zin N h X))) by ring. apply Rmult_le_compat_l; [lra|]. apply zB_norm; auto. }
    apply (Rmult_le_compat_l (fh * sqrt (INR h))) in HZ; [|apply Rmult_le_pos; lra]. eapply Rle_trans; [exact HZ|].
    replace (fh * sqrt (INR h) * ((EE A (11 + a) (1 + b) - 1) * (4 * nrm h z + 7 * psi A * sqrt (INR h))))
      with ((EE A (11 + a) (1 + b) - 1) * (4 * (fh * sqrt (INR h) * nrm h z) + 7 * (psi A * (fh * (sqrt (INR h) * sqrt (INR h)))))) by ring. rewrite sqrt_sqrt by auto.
    apply Rmult_le_compat_l; [lra|]. replace (INR 4) with 4 by (cbn [INR]; ring). rewrite ENR. assert (0 <= psi A * INR h) by (apply Rmult_le_pos; auto).
    assert (psi A * (fh * INR h) <= psi A * INR h) by (apply Rmult_le_compat_l; nra). lra. }
  pose proof (nrm_near h Zt Z) as Hn. pose proof (nrm_pos h Z) as HZp. pose proof (EE_ge1 A (11 + a) (1 + b)) as HE. pose proof (EE_ge1 A (3 + suml ca qs) (suml cb qs)) as HE1.
  assert (Bn : INR 4 * (EE A (11 + a) (1 + b) - 1) <= EE A (11 + a) (1 + b) ^ 4 - 1).
  { pose proof (bern (EE A (11 + a) (1 + b) - 1) 4 ltac:(lra)) as B. replace (1 + (EE A (11 + a) (1 + b) - 1)) with (EE A (11 + a) (1 + b)) in B by ring. lra. }
  assert (HP0 : 0 <= psi A * INR N) by (apply Rmult_le_pos; [auto|apply pos_INR]). assert (HPh : psi A * INR h <= psi A * INR N) by (apply Rmult_le_compat_l; lra).
  assert (HD2 : nrm h (vsub Zt Z) <= (EE A (11 + a) (1 + b) ^ 4 - 1) * (nrm h Z + psi A * INR N)).
  { eapply Rle_trans; [exact HD|]. replace ((EE A (11 + a) (1 + b) - 1) * (INR 4 * (nrm h Z + psi A * INR N))) with ((INR 4 * (EE A (11 + a) (1 + b) - 1)) * (nrm h Z + psi A * INR N)) by ring. apply Rmult_le_compat_r; lra. }
  apply Rle_trans with ((EE A (3 + suml ca qs) (suml cb qs) * EE A (11 + a) (1 + b) ^ 4 - 1) * (nrm h Z + psi A * INR N)).
  - set (P := psi A * INR N) in *. assert (G : (EE A (3 + suml ca qs) (suml cb qs) - 1) * (nrm h Zt + psi A * INR h) <= (EE A (3 + suml ca qs) (suml cb qs) - 1) * (nrm h Z + (EE A (11 + a) (1 + b) ^ 4 - 1) * (nrm h Z + P) + P)) by (apply Rmult_le_compat_l; lra). 
    eapply Rle_trans; [apply Rplus_le_compat; [exact H1|exact HD2]|]. lra.
  - apply Rmult_le_compat_r; [lra|]. apply Rplus_le_compat_r. rewrite EE_pow, EE_mul. apply Rle_refl.
Qed.
Lemma rfft_G_err N kind ps (X : nat -> CC) : real_length N -> meth_inv kind = true -> Im (X 0%nat) = 0 -> Im (X (N / 2)%nat) = 0 -> Forall prime ps -> prodl ps = N ->
  nrm N (vsub (@rfft_G F N kind X) (transform kind N (hermit N X))) <= (EE A (3 + suml ca ps) (suml cb ps) - 1) * (nrm N (transform kind N (hermit N X)) + psi A * INR N).
Proof.
  intros HN Hk H0 Hh0 H1 H2. destruct (half_primes N ps HN H1 H2) as (qs & Hq1 & Hq2 & -> & ->).
  eapply Rle_trans; [apply (rfft_G_err1 N kind qs 0 0 X X); auto; intros; apply ap_id|]. apply Rmult_le_compat_r; [apply nrm_psi|]. apply Rplus_le_compat_r. apply EE_mono; lia.
Qed.
End Inv.
