(** * C71 with RealFFT: overlap-save filtering of a real signal

    As PropStream.v, but the signal is transformed where it stands: fwd0 from the signal to u, the product with the spectrum of the kernel to p,
    invn from p to z, the last L = N - (M - 1) elements of z to the output. *)

From Coq Require Import Reals List Arith ZArith Bool Lia Lra.
From Verif Require Import Scalar RealOps Spec DftFacts Mem MemFacts Omp Lanes Stage Object Engine ApiSpec FactorFacts
  ModelApi History ApiFacts ApiExact Footprint ComplexThms PropComplex ModelReal RealFacts RealRun RealExact GObj RealObj RealSpec RealThms PropConvolution PropRealConv PropStream.
Import ListNotations.

(** ** Specification *)
(** T passes: signal s, kernel spectrum y, work arrays u, p, z, output d *)
Inductive real_overlap_save (b N M : nat) (s y u p z d : ptr) : nat -> mem CC -> mem CC -> Prop :=
| ros_0 m : real_overlap_save b N M s y u p z d 0 m m
| ros_pass T m m0 m1 m2 m3 m4 U V Z : let L := N - (M - 1) in
    real_overlap_save b N M s y u p z d T m m0 ->
    Outcome (rfft_run b N fwd0 (s +! T * L) u) m0 m1 ->
    holds m1 u N U -> holds m1 y N V -> stored m1 p N (fun i => cmul (V i) (U i)) m2 ->
    Outcome (rfft_run b N invn p z) m2 m3 ->
    holds m3 (z +! (M - 1)) L Z -> stored m3 (d +! T * L) L Z m4 ->
    real_overlap_save b N M s y u p z d (S T) m m4.
(** the filtered signal *)
Definition rfiltered (M : nat) (h sig : nat -> R) (n : nat) : R := rsum M (fun j => h j * sig (n + (M - 1) - j)%nat)%R.
Definition rpadded (M : nat) (h : nat -> R) (j : nat) : R := if j <? M then h j else 0%R.
(** arrays (start, length) of which no two overlap *)
Definition apart : list (ptr * nat) -> Prop := ForallOrdPairs (fun a c => disjR (fst a) (snd a) (fst c) (snd c)).

(** ** Proof *)
Lemma rcirc_valid N M h (X : nat -> R) i : 0 < M <= N -> i < N - (M - 1) -> rcirc N (rpadded M h) X (M - 1 + i) = rfiltered M h X i.
Proof.
  intros HM Hi. assert (E : forall a c : R, rc a = rc c -> a = c) by (intros a c E; apply (f_equal fst) in E; exact E). apply E. clear E.
  rewrite <- circ_rc. transitivity (circ N (padded M (fun j => rc (h j))) (fun j => rc (X j)) (M - 1 + i)).
  { unfold circ. apply csum_ext. intros j _. f_equal. unfold rpadded, padded. destruct (j <? M); reflexivity. }
  rewrite circ_valid by auto. unfold filtered, rfiltered. rewrite <- csum_rc. apply csum_ext. intros j _. csimp; ring.
Qed.
Lemma disj_not p n q n' i : disjR p n q n' -> i < n -> ~ inR q n' (p +! i).
Proof. intros D Hi (j & Hj & E). exact (D i j Hi Hj E). Qed.
Lemma disj_not' p n q n' i : disjR p n q n' -> i < n' -> ~ inR p n (q +! i).
Proof. intros D Hi (j & Hj & E). exact (D j i Hj Hi (eq_sym E)). Qed.

Lemma Im_mul (a c : CC) : Im a = 0%R -> Im c = 0%R -> Im (cmul a c) = 0%R.
Proof. destruct a as [a1 a2], c as [c1 c2]. intros E1 E2. creduce. rewrite E1, E2. ring. Qed.
Lemma FOP_inv {A} (R : A -> A -> Prop) a l : ForallOrdPairs R (a :: l) -> Forall (R a) l /\ ForallOrdPairs R l.
Proof. intros H. inversion H. auto. Qed.

Theorem C71_real_overlap_save : forall b N M T s y u p z d (m : mem CC) h sig,
  real_length N -> 0 < M <= N -> rfft_history b (Some N) m ->
  (forall q, In q [s; y; u; p; z; d] -> ~ fft_own b (fst q)) ->
  let L := N - (M - 1) in
  apart [(s, T * L + (M - 1)); (y, N); (u, N); (p, N); (z, N); (d, T * L)] ->
  allocd m (inR u N) -> allocd m (inR z N) ->
  holds m s (T * L + (M - 1)) (fun i => rc (sig i)) -> holds m y N (transform fwd0 N (fun j => rc (rpadded M h j))) ->
  exists m', real_overlap_save b N M s y u p z d T m m' /\ holds m' d (T * L) (fun n => rc (rfiltered M h sig n)) /\
    (forall l, ~ inR u N l -> ~ inR p N l -> ~ inR z N l -> ~ inR d (T * L) l -> m' l = m l) /\ rfft_history b (Some N) m'.
Proof.
  intros b N M T s y u p z d m h sig HN HM Hh Hq L Hap Au Az HS HV.
  pose proof (real_length_pos N HN) as HNp. assert (HL : 0 < L) by (unfold L; lia). assert (EL : N = L + (M - 1)) by (unfold L; lia).
  assert (Qs : ~ fft_own b (fst s)) by (apply Hq; cbn; auto 10). assert (Qy : ~ fft_own b (fst y)) by (apply Hq; cbn; auto 10).
  assert (Qu : ~ fft_own b (fst u)) by (apply Hq; cbn; auto 10). assert (Qp : ~ fft_own b (fst p)) by (apply Hq; cbn; auto 10).
  assert (Qz : ~ fft_own b (fst z)) by (apply Hq; cbn; auto 10). assert (Qd : ~ fft_own b (fst d)) by (apply Hq; cbn; auto 10). clear Hq.
  unfold apart in Hap.
  apply FOP_inv in Hap as [Fs Hap]. apply FOP_inv in Hap as [Fy Hap]. apply FOP_inv in Hap as [Fu Hap].
  apply FOP_inv in Hap as [Fp Hap]. apply FOP_inv in Hap as [Fz _].
  rewrite Forall_forall in Fs, Fy, Fu, Fp, Fz. cbn [fst snd] in *.
  pose proof (Fs (u, N) ltac:(cbn; auto 10)) as Dsu. pose proof (Fs (p, N) ltac:(cbn; auto 10)) as Dsp. pose proof (Fs (z, N) ltac:(cbn; auto 10)) as Dsz.
  pose proof (Fs (d, T * L) ltac:(cbn; auto 10)) as Dsd. pose proof (Fy (u, N) ltac:(cbn; auto 10)) as Dyu. pose proof (Fy (p, N) ltac:(cbn; auto 10)) as Dyp.
  pose proof (Fy (z, N) ltac:(cbn; auto 10)) as Dyz. pose proof (Fy (d, T * L) ltac:(cbn; auto 10)) as Dyd. pose proof (Fu (p, N) ltac:(cbn; auto 10)) as Dup.
  pose proof (Fu (z, N) ltac:(cbn; auto 10)) as Duz. pose proof (Fu (d, T * L) ltac:(cbn; auto 10)) as Dud. pose proof (Fp (z, N) ltac:(cbn; auto 10)) as Dpz.
  pose proof (Fp (d, T * L) ltac:(cbn; auto 10)) as Dpd. pose proof (Fz (d, T * L) ltac:(cbn; auto 10)) as Dzd. clear Fs Fy Fu Fp Fz. cbn [fst snd] in *.
  assert (G : forall K, K <= T -> exists m', real_overlap_save b N M s y u p z d K m m' /\ holds m' d (K * L) (fun n => rc (rfiltered M h sig n)) /\
    (forall l, ~ inR u N l -> ~ inR p N l -> ~ inR z N l -> ~ inR d (K * L) l -> m' l = m l) /\ rfft_history b (Some N) m' /\
    allocd m' (inR u N) /\ allocd m' (inR z N)).
  2:{ destruct (G T (le_n T)) as (m' & A & B & C & D & _). exists m'. auto. }
  induction K as [|K IH]; intros HR.
  { exists m. split; [constructor|]. split; [intros i Hi; lia|]. auto. }
  destruct (IH ltac:(lia)) as (m0 & B0 & R0 & F0 & H0 & Au0 & Az0). clear IH.
  assert (KL : K * L + L <= T * L) by nia.
  assert (OD : forall r q n i, r <= T -> disjR q n d (T * L) -> i < n -> ~ inR d (r * L) (q +! i)).
  { intros r q n i Hr D Hi (j & Hj & E). refine (D i j Hi _ E). nia. }
  assert (HX0 : holds m0 (s +! K * L) N (fun i => rc (sig (K * L + i)))).
  { intros i Hi. rewrite padd_padd. assert (Hi' : K * L + i < T * L + (M - 1)) by lia.
    rewrite F0; [apply HS; exact Hi'|eapply disj_not; eauto|eapply disj_not; eauto|eapply disj_not; eauto|apply (OD K s (T * L + (M - 1))); [lia|exact Dsd|exact Hi']]. }
  destruct (real_fwd_gen b N fwd0 (s +! K * L) u m0 (fun i => sig (K * L + i)) HN eq_refl H0 Qs Qu) as (m1 & O1 & R1 & F1 & H1); [|exact Au0|exact HX0|].
  { intros i j Hi Hj. rewrite padd_padd. apply Dsu; lia. }
  assert (HV1 : holds m1 y N (transform fwd0 N (fun j => rc (rpadded M h j)))).
  { intros i Hi. rewrite F1 by (eapply disj_not; eauto).
    rewrite F0; [apply HV, Hi|eapply disj_not; eauto|eapply disj_not; eauto|eapply disj_not; eauto|apply (OD K y N); [lia|exact Dyd|exact Hi]]. }
  set (PR := fun i => cmul (transform fwd0 N (fun j => rc (rpadded M h j)) i) (transform fwd0 N (fun j => rc (sig (K * L + j))) i)).
  destruct (stored_ok m1 p N PR) as (m2 & S2 & G2).
  assert (H2 : rfft_history b (Some N) m2).
  { eapply h_other; [exact H1|]. intros l Hl. apply G2. intros (j & _ & ->). apply Qp. exact Hl. }
  assert (Az2 : allocd m2 (inR z N)).
  { intros l (i & Hi & ->). rewrite G2 by (eapply disj_not'; eauto). rewrite F1 by (eapply disj_not'; eauto). apply Az0. exists i. auto. }
  destruct (real_inverse b N invn p z m2 PR HN eq_refl H2 Qp Qz Dpz Az2 S2) as (m3 & r & O3 & R3 & F3).
  { apply Im_mul; [apply (transform_Im0 fwd0 N _ eq_refl HNp (isreal_rc (rpadded M h)))|apply (transform_Im0 fwd0 N _ eq_refl HNp (isreal_rc (fun j => sig (K * L + j))))]. }
  { intros i Hi. unfold PR. rewrite !transform_mirror by (auto using isreal_rc; lia). symmetry. apply conj_mul. }
  assert (H3 : rfft_history b (Some N) m3).
  { destruct (rfft_call_ok b N invn p z m2 PR HN H2 Qp Qz Dpz Az2 S2) as (m3' & O3' & _ & _ & H3' & _). rewrite (Outcome_same _ _ _ _ O3 O3'). exact H3'. }
  assert (HZ : holds m3 (z +! (M - 1)) L (fun i => rc (rfiltered M h (fun j => sig (K * L + j)) i))).
  { intros i Hi. rewrite padd_padd. destruct (R3 (M - 1 + i) ltac:(lia)) as [E4 Er]. rewrite E4, Er. f_equal.
    rewrite <- (rcirc_valid N M h (fun j => sig (K * L + j)) i) by auto. rewrite <- circ_rc, <- (transform_circ fwd0 fwd0 invn) by (auto; lia).
    symmetry. apply transform_cis_inv. reflexivity. }
  destruct (stored_ok m3 (d +! K * L) L (fun i => rc (rfiltered M h (fun j => sig (K * L + j)) i))) as (m4 & S4 & G4).
  assert (Hin : forall l, ~ inR d (S K * L) l -> ~ inR (d +! K * L) L l).
  { intros l Hl (j & Hj & ->). apply Hl. exists (K * L + j). split; [nia|]. rewrite padd_padd. reflexivity. }
  assert (OB : forall q n i, disjR q n d (T * L) -> i < n -> ~ inR (d +! K * L) L (q +! i)).
  { intros q n i D Hi. apply Hin. apply (OD (S K) q n); auto. }
  assert (F5 : forall l, ~ inR u N l -> ~ inR p N l -> ~ inR z N l -> ~ inR (d +! K * L) L l -> m4 l = m0 l).
  { intros l L1 L2 L3 L4. rewrite G4, F3, G2, F1 by assumption. reflexivity. }
  exists m4. split; [|split; [|split; [|split; [|split]]]].
  - eapply (ros_pass b N M s y u p z d K m m0 m1 m2 m3 m4); [exact B0|exact O1|exact R1|exact HV1|split; [exact S2|exact G2]|exact O3|exact HZ|split; [exact S4|exact G4]].
  - intros i Hi. destruct (Nat.lt_ge_cases i (K * L)) as [Hlt|Hge].
    + rewrite F5; [apply R0; exact Hlt|eapply disj_not'; [exact Dud|lia]|eapply disj_not'; [exact Dpd|lia]|eapply disj_not'; [exact Dzd|lia]|].
      intros (j & Hj & E). rewrite padd_padd in E. apply padd_inj in E. lia.
    + replace i with (K * L + (i - K * L)) at 1 by lia. rewrite <- padd_padd, (S4 (i - K * L)) by nia. do 2 f_equal. unfold rfiltered.
      apply rsum_ext. intros j Hj. f_equal. f_equal. lia.
  - intros l L1 L2 L3 L4. rewrite F5; [apply F0; auto|exact L1|exact L2|exact L3|apply Hin, L4]. intros (j & Hj & ->). apply L4. exists j. split; [nia|reflexivity].
  - eapply h_other; [exact H3|]. intros l Hl. apply G4. intros (j & _ & ->). apply Qd. exact Hl.
  - intros l (i & Hi & ->). rewrite G4 by (eapply OB; eauto). rewrite F3 by (eapply disj_not; eauto). rewrite G2 by (eapply disj_not; eauto). rewrite R1 by exact Hi. discriminate.
  - intros l (i & Hi & ->). rewrite G4 by (eapply OB; eauto). rewrite (proj1 (R3 i Hi)). discriminate.
Qed.
Print Assumptions C71_real_overlap_save.

(** ** Every run of the loop *)
Lemma real_overlap_save_same b N M s y u p z d T (m m1 m2 : mem CC) :
  real_overlap_save b N M s y u p z d T m m1 -> real_overlap_save b N M s y u p z d T m m2 -> m1 = m2.
Proof.
  intros H. revert m2. induction H as [|T m m0 m1 m2 m3 m4 U V Z L H IH O1 HU HV S2 O3 HZ S4]; intros m' H'; [inversion H'; reflexivity|].
  inversion H' as [|T' n n0 n1 n2 n3 n4 U' V' Z' L' G GO1 GU GV GS2 GO3 GZ GS4]. subst.
  apply IH in G. subst n0. pose proof (Outcome_same _ _ _ _ GO1 O1) as E. subst n1.
  assert (n2 = m2) by (eapply stored_same; [|exact GS2|exact S2]; intros i Hi; cbv beta; f_equal; eapply holds_val; eauto). subst n2.
  pose proof (Outcome_same _ _ _ _ GO3 O3) as E. subst n3.
  eapply stored_same; [|exact S4|exact GS4]. intros i Hi. eapply holds_val; eauto.
Qed.
Corollary C71_real_every_run : forall b N M T s y u p z d (m m' : mem CC) h sig,
  real_length N -> 0 < M <= N -> rfft_history b (Some N) m ->
  (forall q, In q [s; y; u; p; z; d] -> ~ fft_own b (fst q)) ->
  let L := N - (M - 1) in
  apart [(s, T * L + (M - 1)); (y, N); (u, N); (p, N); (z, N); (d, T * L)] ->
  allocd m (inR u N) -> allocd m (inR z N) ->
  holds m s (T * L + (M - 1)) (fun i => rc (sig i)) -> holds m y N (transform fwd0 N (fun j => rc (rpadded M h j))) ->
  real_overlap_save b N M s y u p z d T m m' -> holds m' d (T * L) (fun n => rc (rfiltered M h sig n)).
Proof.
  intros b N M T s y u p z d m m' h sig HN HM Hh Hq L Hap Au Az HS HV H.
  destruct (C71_real_overlap_save b N M T s y u p z d m h sig HN HM Hh Hq Hap Au Az HS HV) as (m1 & H1 & R & _).
  rewrite (real_overlap_save_same _ _ _ _ _ _ _ _ _ _ _ _ _ H H1). exact R.
Qed.
Print Assumptions C71_real_every_run.

(** the spectrum of the kernel comes from a call of fwd0 on the same object *)
Theorem C71_real_kernel_spectrum : forall b N M x y (m : mem CC) h, real_length N -> rfft_history b (Some N) m ->
  ~ fft_own b (fst x) -> ~ fft_own b (fst y) -> disjR x N y N -> allocd m (inR y N) -> holds m x N (fun j => rc (rpadded M h j)) ->
  exists m', Outcome (rfft_run b N fwd0 x y) m m' /\ holds m' y N (transform fwd0 N (fun j => rc (rpadded M h j))) /\ rfft_history b (Some N) m'.
Proof. intros b N M x y m h HN Hh Hx Hy D Ha HX. destruct (real_fwd_gen b N fwd0 x y m _ HN eq_refl Hh Hx Hy D Ha HX) as (m' & O & R & _ & H). exists m'. auto. Qed.
Print Assumptions C71_real_kernel_spectrum.

(** ** The hypotheses are met: a kernel of 10 coefficients, blocks of 64 elements, any number of passes, any data *)
Example C71_real_hypotheses_met : forall T (h sig : nat -> R), exists (m : mem CC),
  let s := (20, 0) in let y := (21, 0) in let u := (22, 0) in let p := (23, 0) in let z := (24, 0) in let d := (25, 0) in
  real_length 64 /\ rfft_history 0 (Some 64) m /\ (forall q, In q [s; y; u; p; z; d] -> ~ fft_own 0 (fst q)) /\
  apart [(s, T * 55 + 9); (y, 64); (u, 64); (p, 64); (z, 64); (d, T * 55)] /\ allocd m (inR u 64) /\ allocd m (inR z 64) /\
  holds m s (T * 55 + 9) (fun i => rc (sig i)) /\ holds m y 64 (transform fwd0 64 (fun j => rc (rpadded 10 h j))).
Proof.
  intros T h sig.
  assert (HN : real_length 64) by (unfold real_length; split; [reflexivity|split; [lia|]]; try (apply (proj1 valid_lengths 5); lia); lia).
  destruct (PropRealConv.C58_real_hypotheses_met ROps 64 (fun _ => (0, 0)%R) (fun _ => (0, 0)%R) HN) as (m1 & H1 & _).
  exists (fun l : loc => if fst l <=? 3 then m1 l else if fst l =? 20 then Val (rc (sig (snd l)))
    else Val (transform fwd0 64 (fun j => rc (rpadded 10 h j)) (snd l))).
  cbv zeta. split; [exact HN|]. split; [|split; [|split; [|split; [|split; [|split]]]]].
  - eapply h_other; [exact H1|]. intros l Hl. unfold fft_own in Hl. rewrite (proj2 (Nat.leb_le _ _)) by lia. reflexivity.
  - intros q Hq. cbn [In] in Hq. unfold fft_own. repeat (destruct Hq as [<-|Hq]; [cbn [fst]; lia|]). destruct Hq.
  - unfold apart. repeat (constructor; [repeat (constructor; [cbn [fst snd]; apply disjR_buf; cbn [fst]; lia|]); constructor|]). constructor.
  - intros l (i & Hi & ->). cbn. discriminate.
  - intros l (i & Hi & ->). cbn. discriminate.
  - intros i Hi. cbn. reflexivity.
  - intros i Hi. cbn [padd fst snd]. cbn [Nat.leb Nat.eqb]. unfold padd. cbn [fst snd]. rewrite Nat.add_0_l. reflexivity.
Qed.
