(** * Properties of the individual transform engines, independently of the dispatcher

    Every engine is set up from an arbitrary memory [m0] and then run on any memory [m] that agrees with
    the result of the setup on the engine's own buffers.  [Outcome] is explained in PropComplex.v. *)

From Coq Require Import Reals List Arith ZArith Bool Lia.
From Verif Require Import Scalar RealOps Spec DftFacts Mem MemFacts Omp Lanes Stage CoreStage Object ObjectFacts Engine ApiSpec FactorFacts FftSpec
  Twid ModelPow PowDrive PowKern PowRun PowClassFacts PowSpec PowExact ModelSix SixRun SixPart SixEight SixClass SixExact
  ModelMixedClass MixedClassFacts MixedExact Steps ModelApi History ApiFacts ComplexThms.
Import ListNotations.
Local Open Scope nat_scope.

(** ** generic: setup, then a transform *)
Lemma engine_works {Op : Ops} (own : nat -> Prop) su ready N (c : ptr -> ptr -> list (act C)) F :
  SetsUp own su ready -> Local own ready -> Transforms own ready N c F ->
  forall m0 : mem C, exists m1, Outcome su m0 m1 /\ (forall l, ~ own (fst l) -> m1 l = m0 l) /\
  forall m X x y, (forall l, own (fst l) -> m l = m1 l) -> ~ own (fst x) -> ~ own (fst y) -> disjR x N y N ->
    holds m x N X -> allocd m (inR y N) ->
    exists m', Outcome (c x y) m m' /\ holds m' x N (F X) /\ (forall l, ~ inR x N l -> ~ inR y N l -> m' l = m l).
Proof.
  intros HS HL HT m0. destruct (SetsUp_Outcome own su ready m0 HS) as (m1 & Ho & Hr & Hf).
  exists m1. split; [exact Ho|]. split; [exact Hf|]. intros m X x y Hm Hx Hy Hxy HX Hya.
  destruct (HT x y m X Hx Hy Hxy) as (m' & Hc & Hh); auto.
  { eapply HL; [|exact Hr]. auto. }
  exists m'. split; [eapply CExec_Outcome; exact Hc|]. split; [exact Hh|]. intros l H1 H2. destruct Hc as (_ & _ & Hc & _). apply Hc. intros [H|H]; auto.
Qed.

(** C13: each of the six power-of-two algorithms, through its own setup and all eight methods *)
Theorem C13_power_of_two_algorithms : forall a b n k (m0 : mem CC), 1 <= n <= 24 ->
  exists m1, Outcome (pow_setup2 a b n) m0 m1 /\ (forall l, fst l <> b -> m1 l = m0 l) /\
  forall m X x y, (forall l, fst l = b -> m l = m1 l) -> fst x <> b -> fst y <> b -> disjR x (2 ^ n) y (2 ^ n) ->
    holds m x (2 ^ n) X -> allocd m (inR y (2 ^ n)) ->
    exists m', Outcome (pow_run a b n k x y) m m' /\ holds m' x (2 ^ n) (transform k (2 ^ n) X) /\
      (forall l, ~ inR x (2 ^ n) l -> ~ inR y (2 ^ n) l -> m' l = m l).
Proof.
  intros a b n k m0 Hn.
  pose proof (engine_works (fun c => c = b) _ _ _ _ _ (pow_setup_ok a b n _ eq_refl) (pow_ready_local a b n _ eq_refl)
    (pow_run_ok a b n k _ eq_refl Hn) m0) as (m1 & H1 & H2 & H3).
  exists m1. split; [exact H1|]. split; [exact H2|]. intros m X x y Hm Hx Hy Hxy HX Hya.
  destruct (H3 m X x y Hm Hx Hy Hxy HX Hya) as (m' & O & Hh & Hf). exists m'. split; [exact O|]. split; [|exact Hf].
  eapply holds_ext; [exact Hh|]. intros i Hi. apply pow_F_exact; [lia|exact Hi].
Qed.
Print Assumptions C13_power_of_two_algorithms.
(** hence which of them the dispatcher picks is unobservable *)
Theorem C13_choice_unobservable : forall a a' b n k (m0 : mem CC), 1 <= n <= 24 ->
  exists m1 m1', Outcome (pow_setup2 a b n) m0 m1 /\ Outcome (pow_setup2 a' b n) m0 m1' /\
  forall m mm X x y, (forall l, fst l = b -> m l = m1 l) -> (forall l, fst l = b -> mm l = m1' l) -> fst x <> b -> fst y <> b -> disjR x (2 ^ n) y (2 ^ n) ->
    holds m x (2 ^ n) X -> allocd m (inR y (2 ^ n)) -> holds mm x (2 ^ n) X -> allocd mm (inR y (2 ^ n)) ->
    exists m' mm', Outcome (pow_run a b n k x y) m m' /\ Outcome (pow_run a' b n k x y) mm mm' /\ forall i, i < 2 ^ n -> m' (x +! i) = mm' (x +! i).
Proof.
  intros a a' b n k m0 Hn.
  destruct (C13_power_of_two_algorithms a b n k m0 Hn) as (m1 & A1 & _ & A2).
  destruct (C13_power_of_two_algorithms a' b n k m0 Hn) as (m1' & B1 & _ & B2).
  exists m1, m1'. split; [exact A1|]. split; [exact B1|]. intros m mm X x y Hm Hmm Hx Hy Hxy H1 H2 H3 H4.
  destruct (A2 m X x y Hm Hx Hy Hxy H1 H2) as (m' & O & H & _). destruct (B2 mm X x y Hmm Hx Hy Hxy H3 H4) as (mm' & O' & H' & _).
  exists m', mm'. split; [exact O|]. split; [exact O'|]. intros i Hi. rewrite (H i Hi), (H' i Hi). reflexivity.
Qed.
Print Assumptions C13_choice_unobservable.

(** C14: the six-step (even exponent) and eight-step (odd exponent) transforms, and the small sizes handled by the same class *)
Theorem C14_six_and_eight_step : forall b n k (m0 : mem CC), 1 <= n <= 24 ->
  exists m1, Outcome (six_setup2 b n) m0 m1 /\ (forall l, ~ b <= fst l <= b + 2 -> m1 l = m0 l) /\
  forall m X x y, (forall l, b <= fst l <= b + 2 -> m l = m1 l) -> ~ b <= fst x <= b + 2 -> ~ b <= fst y <= b + 2 -> disjR x (2 ^ n) y (2 ^ n) ->
    holds m x (2 ^ n) X -> allocd m (inR y (2 ^ n)) ->
    exists m', Outcome (six_run b n k x y) m m' /\ holds m' x (2 ^ n) (transform k (2 ^ n) X) /\
      (forall l, ~ inR x (2 ^ n) l -> ~ inR y (2 ^ n) l -> m' l = m l).
Proof.
  intros b n k m0 Hn.
  pose proof (engine_works (six_own b) _ _ _ _ _ (six_setup_ok b n ltac:(lia)) (six_ready_local b n) (six_run_ok b n k Hn) m0) as (m1 & H1 & H2 & H3).
  exists m1. split; [exact H1|]. split; [exact H2|]. intros m X x y Hm Hx Hy Hxy HX Hya.
  destruct (H3 m X x y Hm Hx Hy Hxy HX Hya) as (m' & O & Hh & Hf). exists m'. split; [exact O|]. split; [|exact Hf].
  eapply holds_ext; [exact Hh|]. intros i Hi. apply six_F_exact; auto.
Qed.
Print Assumptions C14_six_and_eight_step.

(** the mixed-radix engine, including power-of-two lengths *)
Theorem C13_mixed_radix : forall b N k (m0 : mem CC), valid_length N ->
  exists m1, Outcome (mixed_setup b N) m0 m1 /\ (forall l, fst l <> b -> m1 l = m0 l) /\
  forall m X x y, (forall l, fst l = b -> m l = m1 l) -> fst x <> b -> fst y <> b -> disjR x N y N ->
    holds m x N X -> allocd m (inR y N) ->
    exists m', Outcome (mixed_run b N k x y) m m' /\ holds m' x N (transform k N X) /\
      (forall l, ~ inR x N l -> ~ inR y N l -> m' l = m l).
Proof.
  intros b N k m0 (H2 & H30 & Hfit).
  pose proof (engine_works (fun c => c = b) _ _ _ _ _ (mixed_setup_ok b N _ eq_refl) (mixed_ready_local b N _ eq_refl)
    (mixed_run_ok b N k (fun c => c = b) eq_refl ltac:(lia) H30 Hfit) m0) as (m1 & H1 & H5 & H3).
  exists m1. split; [exact H1|]. split; [exact H5|]. intros m X x y Hm Hx Hy Hxy HX Hya.
  destruct (H3 m X x y Hm Hx Hy Hxy HX Hya) as (m' & O & Hh & Hf). exists m'. split; [exact O|]. split; [|exact Hf].
  eapply holds_ext; [exact Hh|]. intros i Hi. apply mixed_F_exact; auto; lia.
Qed.
Print Assumptions C13_mixed_radix.

(** ** C30: the single- and multi-threaded versions agree, at every size (not only on "their" side of the threshold) *)

(** mixed radix, in any arithmetic (floating point included): same values *)
Theorem C30_mixed_radix : forall (Op : Ops) b N k (m0 : mem C), valid_length N ->
  exists mS mP, Outcome (mixed_setup_serial b N) m0 mS /\ Outcome (mixed_setup_parallel b N) m0 mP /\
    (forall i, i < N + 1 -> mS (b, i) = mP (b, i) /\ exists v, mS (b, i) = Val v) /\
  forall m X x y, (forall i, i < N + 1 -> m (b, i) = mS (b, i)) -> fst x <> b -> fst y <> b -> disjR x N y N ->
    holds m x N X -> allocd m (inR y N) ->
    exists m1 m2 Y, Outcome (mixed_serial b N k x y) m m1 /\ Outcome (mixed_parallel b N k x y) m m2 /\ holds m1 x N Y /\ holds m2 x N Y.
Proof.
  intros Op b N k m0 (H2 & H30 & Hfit).
  destruct (SetsUp_Outcome _ _ _ m0 (mixed_setup_serial_ok b N (fun c => c = b) eq_refl)) as (mS & OS & RS & _).
  destruct (SetsUp_Outcome _ _ _ m0 (mixed_setup_parallel_ok b N (fun c => c = b) eq_refl)) as (mP & OP & RP & _).
  exists mS, mP. split; [exact OS|]. split; [exact OP|]. split.
  - intros i Hi. pose proof (RS i ltac:(lia)) as E1. pose proof (RP i ltac:(lia)) as E2. unfold padd in E1, E2. cbn [fst snd Nat.add] in E1, E2.
    rewrite E1, E2. eauto.
  - intros m X x y Hm Hx Hy Hxy HX Hya.
    assert (Hr : mixed_ready b N m).
    { intros i Hi. unfold padd. cbn [fst snd Nat.add]. rewrite Hm by lia. exact (RS i Hi). }
    destruct (mixed_serial_ok b N k (fun c => c = b) eq_refl ltac:(lia) H30 Hfit x y m X Hx Hy Hxy Hr HX Hya) as (m1 & C1 & V1).
    destruct (mixed_parallel_ok b N k (fun c => c = b) eq_refl ltac:(lia) H30 Hfit x y m X Hx Hy Hxy Hr HX Hya) as (m2 & C2 & V2).
    exists m1, m2, (mixed_F N k X). split; [eapply CExec_Outcome; exact C1|]. split; [eapply CExec_Outcome; exact C2|]. split; [exact V1|exact V2].
Qed.
Print Assumptions C30_mixed_radix.

(** power-of-two algorithms, exact arithmetic: the two versions use different tables and different kernels *)
Theorem C30_power_of_two : forall a b n k (m0 : mem CC), 1 <= n <= 24 -> radix a < 2 ^ n ->
  exists mS mP, Outcome (pow_setup_serial a b (2 ^ n)) m0 mS /\ Outcome (pow_setup_parallel a b (2 ^ n)) m0 mP /\
  forall m mm X x y, (forall l, fst l = b -> m l = mS l) -> (forall l, fst l = b -> mm l = mP l) -> fst x <> b -> fst y <> b -> disjR x (2 ^ n) y (2 ^ n) ->
    holds m x (2 ^ n) X -> allocd m (inR y (2 ^ n)) -> holds mm x (2 ^ n) X -> allocd mm (inR y (2 ^ n)) ->
    exists m1 m2, Outcome (pow_serial a b n k x y) m m1 /\ Outcome (pow_parallel a b n k x y) mm m2 /\
      holds m1 x (2 ^ n) (transform k (2 ^ n) X) /\ holds m2 x (2 ^ n) (transform k (2 ^ n) X).
Proof.
  intros a b n k m0 Hn Hr.
  assert (Hp : pow2 (2 ^ n)) by (eexists; reflexivity).
  assert (H2 : 2 <= 2 ^ n) by (destruct n; [lia|]; cbn [Nat.pow]; pose proof (pow2_pos n); lia).
  assert (El : 2 ^ n <=? radix a = false) by (apply Nat.leb_gt; auto).
  destruct (SetsUp_Outcome _ _ _ m0 (pow_setup_serial_ok a b (2 ^ n) (fun c => c = b) eq_refl Hp Hr)) as (mS & OS & RS & _).
  destruct (SetsUp_Outcome _ _ _ m0 (pow_setup_parallel_ok a b (2 ^ n) (fun c => c = b) eq_refl Hr)) as (mP & OP & RP & _).
  exists mS, mP. split; [exact OS|]. split; [exact OP|]. intros m mm X x y Hm Hmm Hx Hy Hxy A1 A2 A3 A4.
  pose proof (pow_serial_ok a b n k (fun c => c = b) eq_refl Hn x y m X Hx Hy Hxy) as HS. rewrite El in HS.
  destruct HS as (m1 & C1 & V1); auto.
  { eapply (tab_own_local b _ _ (fun c => c = b)); [reflexivity| |exact RS]. auto. }
  destruct (pow_parallel_ok a b n k (fun c => c = b) eq_refl Hn x y mm X Hx Hy Hxy) as (m2 & C2 & V2); auto.
  { eapply (tab_own_local b _ _ (fun c => c = b)); [reflexivity| |exact RP]. auto. }
  exists m1, m2. split; [eapply CExec_Outcome; exact C1|]. split; [eapply CExec_Outcome; exact C2|].
  clear C1 C2 A1 A2 A3 A4 RS RP OS OP. set (N := 2 ^ n) in *. clearbody N.
  split; (eapply holds_ext; [eassumption|]); intros i Hi; unfold transform; rewrite <- sc_factor by lia; rewrite <- DFT_cscal.
  - pose proof (pow_ff_spec false a (meth_inv k) (meth_mode k) N N 1 (Wt_T (radix a) N) X (le_n _) H2 Hp (or_introl eq_refl)) as H.
    rewrite Nat.mul_1_r in H. specialize (H (fun _ => Wt_exact a N Hp (Nat.lt_le_incl _ _ Hr))). apply (fft_spec_DFT _ N); auto.
  - pose proof (pow_ff_spec true a (meth_inv k) (meth_mode k) N N 1 (Wr1_T N) X (le_n _) H2 Hp (or_introl eq_refl)) as H.
    rewrite Nat.mul_1_r in H. specialize (H (fun _ => fun p _ _ _ => Wr1_exact N p ltac:(lia))). apply (fft_spec_DFT _ N); auto.
Qed.
Print Assumptions C30_power_of_two.

(** six-step, in any arithmetic: same memory *)
Theorem C30_six_step : forall (Op : Ops) b h k (m0 : mem C), 3 <= h <= 12 -> let n := 2 ^ h in let N := 2 ^ (2 * h) in
  exists m1, Outcome (six_setup2 b (2 * h)) m0 m1 /\
  forall m X x y, (forall l, b <= fst l <= b + 2 -> m l = m1 l) -> ~ b <= fst x <= b + 2 -> ~ b <= fst y <= b + 2 -> disjR x N y N ->
    holds m x N X -> allocd m (inR y N) ->
    exists m', Outcome (six_serial (six_iv n) (meth_inv k) (meth_mode k) (2 * h) x y (b, 0) (b + 2, 0)) m m' /\
               Outcome (six_parallel (six_iv n) (meth_inv k) (meth_mode k) (2 * h) x y (b, 0) (b + 2, 0)) m m'.
Proof.
  intros Op b h k m0 Hh n N.
  destruct (SetsUp_Outcome _ _ _ m0 (six_setup_ok b (2 * h) ltac:(lia))) as (m1 & O1 & R1 & _).
  exists m1. split; [exact O1|]. intros m X x y Hm Hx Hy Hxy HX Hya.
  assert (Hrd : six_ready b (2 * h) m) by (eapply six_ready_local; [|exact R1]; auto).
  assert (HdT : forall c P z, b <= c <= b + 2 -> ~ b <= fst z <= b + 2 -> disjT (c, 0) P z N).
  { intros c P z Hc Hz i j _ _ E. apply Hz. unfold padd in E. injection E as E _. cbn in E. rewrite <- E. auto. }
  unfold six_ready in Hrd. cbv zeta in Hrd.
  assert (E5 : 2 * h <=? 5 = false) by (apply Nat.leb_gt; lia). rewrite E5 in Hrd.
  assert (Eo : Nat.odd (2 * h) = false) by (rewrite Nat.odd_mul; reflexivity). rewrite Eo in Hrd.
  assert (Eh : 2 * h / 2 = h) by (rewrite Nat.mul_comm; apply Nat.div_mul; lia). rewrite Eh in Hrd. destruct Hrd as (R2 & R3).
  destruct (pow_half h ltac:(lia)) as (q & Em & Hq). pose proof (pow_le_12 h ltac:(lia)) as H12.
  assert (EN : N = n * n) by (unfold N, n; rewrite <- Nat.pow_add_r; f_equal; lia).
  replace (b + 2) with (S (S b)) in * by lia.
  destruct (six_ok n h q x y (b, 0) (S (S b), 0) eq_refl ltac:(lia) Em H12 (meth_inv k) (meth_mode k) m X (wnxn_T n) (Wt_T 8 n))
    as (m' & S1 & _ & E2 & _); rewrite <- ?EN; auto; try (apply HdT; [lia|auto]).
  exists m'. split.
  - eapply CExec_Outcome. apply CExec_par. eapply Step_Exec. exact S1.
  - eapply CExec_Outcome. apply CExec_par. exact E2.
Qed.
Print Assumptions C30_six_step.

(** eight-step, in any arithmetic: the three versions leave the same values *)
Theorem C30_eight_step : forall (Op : Ops) b h k (m0 : mem C), 2 <= h <= 10 -> let n := 2 ^ h in let N := 2 ^ (2 * h + 3) in
  exists m1, Outcome (six_setup2 b (2 * h + 3)) m0 m1 /\
  forall m X x y, (forall l, b <= fst l <= b + 2 -> m l = m1 l) -> ~ b <= fst x <= b + 2 -> ~ b <= fst y <= b + 2 -> disjR x N y N ->
    holds m x N X -> allocd m (inR y N) ->
    exists Y, forall c, In c [eight_serial; eight_parallel; eight_large] ->
    exists m', Outcome (c (six_iv n) (meth_inv k) (meth_mode k) (2 * h + 3) x y (b, 0) (b + 1, 0) (b + 2, 0)) m m' /\ holds m' x N Y.
Proof.
  intros Op b h k m0 Hh n N.
  destruct (SetsUp_Outcome _ _ _ m0 (six_setup_ok b (2 * h + 3) ltac:(lia))) as (m1 & O1 & R1 & _).
  exists m1. split; [exact O1|]. intros m X x y Hm Hx Hy Hxy HX Hya.
  assert (Hrd : six_ready b (2 * h + 3) m) by (eapply six_ready_local; [|exact R1]; auto).
  assert (HdT : forall c P z, b <= c <= b + 2 -> ~ b <= fst z <= b + 2 -> disjT (c, 0) P z N).
  { intros c P z Hc Hz i j _ _ E. apply Hz. unfold padd in E. injection E as E _. cbn in E. rewrite <- E. auto. }
  unfold six_ready in Hrd. cbv zeta in Hrd.
  assert (E5 : 2 * h + 3 <=? 5 = false) by (apply Nat.leb_gt; lia). rewrite E5 in Hrd.
  assert (Eo : Nat.odd (2 * h + 3) = true). { apply Nat.odd_spec. exists (h + 1). lia. }
  rewrite Eo in Hrd.
  assert (Eh : (2 * h + 3) / 2 - 1 = h). { replace (2 * h + 3) with (1 + (h + 1) * 2) by lia. rewrite Nat.div_add by lia. cbn. lia. }
  rewrite Eh in Hrd. destruct Hrd as (R2 & R3 & R4).
  destruct (pow_half h ltac:(lia)) as (q & Em & Hq). pose proof (pow_le_12 h ltac:(lia)) as H12.
  assert (EN : N = 8 * (n * n)) by (unfold N, n; change 8 with (2 ^ 3); rewrite <- !Nat.pow_add_r; f_equal; lia).
  assert (E8 : N / 8 = n * n) by (rewrite EN, Nat.mul_comm; apply Nat.div_mul; lia).
  fold N n in R2, R3, R4. rewrite E8 in R2. replace (b + 2) with (S (S b)) in * by lia. replace (b + 1) with (S b) by lia.
  exists (eightF (meth_inv k) N (meth_mode k) n (Wr1_T N) (wnxn_T n) (Wt_T 8 n) X). intros c Hc.
  destruct (eight_ok n h q N x y (b, 0) (S b, 0) (S (S b), 0) eq_refl ltac:(lia) Em H12 EN (meth_inv k) (meth_mode k) Hxy)
    with (m0 := m) (T := Wr1_T N) (Tm := wnxn_T n) (Ts := Wt_T 8 n) (X := X) (c := c) as (m' & HE & Ho); auto;
    try (apply HdT; [lia|auto]).
  exists m'. split; [eapply CExec_Outcome; exact HE|exact Ho].
Qed.
Print Assumptions C30_eight_step.

(** ** the hypotheses can be met: for any algorithm, any size and any data there is such a memory *)
Theorem engine_hypotheses_met : forall (own : nat -> Prop) (N : nat) (m1 : mem CC) (X : nat -> CC) x y,
  ~ own (fst x) -> ~ own (fst y) -> fst x <> fst y ->
  exists m, (forall l, own (fst l) -> m l = m1 l) /\ disjR x N y N /\ holds m x N X /\ allocd m (inR y N).
Proof.
  intros own N m1 X x y Hx Hy Hne. exists (poke x N X (poke y N (fun _ => c0) m1)). split; [|split; [|split]].
  - intros l Hl. rewrite !poke_out; auto; intros E; rewrite E in Hl; auto.
  - apply disjR_buf. auto.
  - apply poke_holds.
  - intros l (i & Hi & ->). rewrite poke_out by (cbn; auto). rewrite poke_holds by auto. discriminate.
Qed.
Print Assumptions engine_hypotheses_met.
