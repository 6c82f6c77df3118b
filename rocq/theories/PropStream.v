(** * C71: filtering a signal of any length block by block (overlap-save)

    The client keeps the spectrum V of a kernel of M coefficients, padded with zeros to N, and goes through the signal in steps of
    L = N - (M - 1): it copies N elements of the signal to x, calls fwd0 on x, multiplies x element by element with V, calls invn on x, and
    appends the last L elements of x to the output.  With ComplexFFT, in exact arithmetic, for every number of threads and every
    interleaving inside each call. *)

From Coq Require Import Reals List Arith ZArith Bool Lia Lra FunctionalExtensionality.
From Verif Require Import Scalar RealOps Spec DftFacts Mem MemFacts Omp Lanes Stage Object Engine ApiSpec FactorFacts
  ModelApi History ApiFacts ApiExact Footprint ComplexThms PropComplex PropConvolution.
Import ListNotations.

(** ** Specification *)
(** the client stores the n elements X at p *)
Definition stored (m : mem CC) (p : ptr) (n : nat) (X : nat -> CC) (m' : mem CC) : Prop :=
  holds m' p n X /\ forall l, ~ inR p n l -> m' l = m l.
(** T passes of the loop: signal in s, work array x, spectrum of the kernel in y, output in d; M coefficients, length N *)
Inductive overlap_save (b N M : nat) (s x y d : ptr) : nat -> mem CC -> mem CC -> Prop :=
| os_0 m : overlap_save b N M s x y d 0 m m
| os_pass T m m0 m1 m2 m3 m4 m5 X U V Z : let L := N - (M - 1) in
    overlap_save b N M s x y d T m m0 ->
    holds m0 (s +! T * L) N X -> stored m0 x N X m1 ->
    Outcome (fft_run b N fwd0 x) m1 m2 ->
    holds m2 x N U -> holds m2 y N V -> stored m2 x N (fun i => cmul (V i) (U i)) m3 ->
    Outcome (fft_run b N invn x) m3 m4 ->
    holds m4 (x +! (M - 1)) L Z -> stored m4 (d +! T * L) L Z m5 ->
    overlap_save b N M s x y d (S T) m m5.
(** the filtered signal: h has M coefficients; element n combines the elements n .. n + M - 1 of the signal *)
Definition filtered (M : nat) (h sig : nat -> CC) (n : nat) : CC := csum M (fun j => cmul (h j) (sig (n + (M - 1) - j))).
Definition padded (M : nat) (h : nat -> CC) (j : nat) : CC := if j <? M then h j else (0, 0)%R.

(** ** Proof *)
Lemma stored_ok (m : mem CC) p n X : exists m', stored m p n X m'.
Proof.
  exists (fun l : loc => if (fst l =? fst p) && (snd p <=? snd l) && (snd l <? snd p + n) then Val (X (snd l - snd p)) else m l). split.
  - intros i Hi. unfold padd. cbn [fst snd]. rewrite Nat.eqb_refl, (proj2 (Nat.leb_le _ _)), (proj2 (Nat.ltb_lt _ _)) by lia. cbn [andb]. do 2 f_equal. lia.
  - intros l Hl. destruct ((fst l =? fst p) && (snd p <=? snd l) && (snd l <? snd p + n)) eqn:E; [|reflexivity].
    exfalso. apply andb_prop in E as [E E3]. apply andb_prop in E as [E1 E2]. apply Nat.eqb_eq in E1. apply Nat.leb_le in E2. apply Nat.ltb_lt in E3.
    apply Hl. exists (snd l - snd p). split; [lia|]. destruct l as [c o], p as [c' o']. unfold padd. cbn [fst snd] in *. subst. f_equal. lia.
Qed.
(** the last L elements of the circular convolution with the padded kernel are a part of the filtered signal *)
Lemma circ_valid N M h (X : nat -> CC) i : 0 < M <= N -> i < N - (M - 1) ->
  circ N (padded M h) X (M - 1 + i) = filtered M h X i.
Proof.
  intros HM Hi. unfold circ, filtered. replace N with (M + (N - M)) at 1 by lia. rewrite csum_app.
  transitivity (cadd (csum M (fun j => cmul (h j) (X (i + (M - 1) - j)))) (csum (N - M) (fun _ => (0, 0)%R))).
  - f_equal; apply csum_ext; intros j Hj.
    + unfold padded. rewrite (proj2 (Nat.ltb_lt _ _)) by lia. f_equal. f_equal. replace (M - 1 + i + (N - j)) with (i + (M - 1) - j + 1 * N) by lia.
      rewrite Nat.mod_add, Nat.mod_small by lia. reflexivity.
    + unfold padded. rewrite (proj2 (Nat.ltb_ge _ _)) by lia. generalize (X ((M - 1 + i + (N - (M + j))) mod N)). intros z. csimp; ring.
  - assert (E : forall n, csum n (fun _ => (0, 0)%R) = (0, 0)%R) by (induction n as [|n IH]; [reflexivity|]; cbn [csum]; rewrite IH; csimp; ring).
    rewrite E. generalize (csum M (fun j => cmul (h j) (X (i + (M - 1) - j)))). intros z. csimp; ring.
Qed.

Theorem C71_overlap_save : forall b N M T s x y d (m : mem CC) h sig,
  valid_length N -> 0 < M <= N -> fft_history b (Some N) m -> (forall p, In p [s; x; y; d] -> ~ fft_own b (fst p)) ->
  let L := N - (M - 1) in
  disjR x N s (T * L + (M - 1)) -> disjR x N y N -> disjR x N d (T * L) -> disjR d (T * L) s (T * L + (M - 1)) -> disjR d (T * L) y N ->
  holds m s (T * L + (M - 1)) sig -> holds m y N (transform fwd0 N (padded M h)) ->
  exists m', overlap_save b N M s x y d T m m' /\ holds m' d (T * L) (filtered M h sig) /\
    (forall l, ~ inR x N l -> ~ inR d (T * L) l -> ~ fft_own b (fst l) -> m' l = m l) /\ fft_history b (Some N) m'.
Proof.
  intros b N M T s x y d m h sig HN HM Hh Hq L Dxs Dxy Dxd Dds Ddy HS HV.
  assert (HNp : 0 < N) by (unfold valid_length in HN; lia). assert (HL : 0 < L) by (unfold L; lia). assert (EL : N = L + (M - 1)) by (unfold L; lia).
  pose proof (Hq s ltac:(cbn; auto)) as Qs. pose proof (Hq x ltac:(cbn; auto)) as Qx. pose proof (Hq y ltac:(cbn; auto)) as Qy. pose proof (Hq d ltac:(cbn; auto)) as Qd. clear Hq.
  assert (G : forall R, R <= T -> exists m', overlap_save b N M s x y d R m m' /\ holds m' d (R * L) (filtered M h sig) /\
    (forall l, ~ inR x N l -> ~ inR d (R * L) l -> ~ fft_own b (fst l) -> m' l = m l) /\ fft_history b (Some N) m').
  2:{ apply G. lia. }
  intros K. induction K as [|K IH]; intros HR.
  { exists m. split; [constructor|]. split; [intros i Hi; lia|]. split; [auto|exact Hh]. }
  destruct (IH ltac:(lia)) as (m0 & B0 & R0 & F0 & H0).
  assert (Hb : forall p, ~ fft_own b (fst p) -> forall i, ~ inR ((b + 3)%nat, 0) N (p +! i)).
  { intros p Hp i (j & _ & E). apply Hp. apply (f_equal fst) in E. cbn in E. rewrite E. unfold fft_own. lia. }
  assert (OS : forall i, i < T * L + (M - 1) -> ~ inR x N (s +! i)) by (intros i Hi (j & Hj & E); exact (Dxs j i Hj Hi (eq_sym E))).
  assert (OY : forall i, i < N -> ~ inR x N (y +! i)) by (intros i Hi (j & Hj & E); exact (Dxy j i Hj Hi (eq_sym E))).
  assert (OD : forall i, i < T * L -> ~ inR x N (d +! i)) by (intros i Hi (j & Hj & E); exact (Dxd j i Hj Hi (eq_sym E))).
  assert (DS : forall r i, r <= T -> i < T * L + (M - 1) -> ~ inR d (r * L) (s +! i)) by (intros r i Hr Hi (j & Hj & E); refine (Dds j i _ Hi (eq_sym E)); nia).
  assert (DY : forall r i, r <= T -> i < N -> ~ inR d (r * L) (y +! i)) by (intros r i Hr Hi (j & Hj & E); refine (Ddy j i _ Hi (eq_sym E)); nia).
  (* copy in *)
  set (X := fun i => sig (K * L + i)).
  assert (HX0 : holds m0 (s +! K * L) N X).
  { intros i Hi. rewrite padd_padd. rewrite F0; [apply HS; nia|apply OS; nia|apply DS; [lia|nia]|exact Qs]. }
  destruct (stored_ok m0 x N X) as (m1 & S1 & G1).
  assert (H1 : fft_history b (Some N) m1).
  { eapply h_other; [exact H0|]. intros l Hl. apply G1. intros (j & _ & ->). apply Qx. exact Hl. }
  destruct (fft_call b N fwd0 x m1 X HN H1 Qx S1) as (m2 & O2 & R2 & F2 & H2).
  assert (HV2 : holds m2 y N (transform fwd0 N (padded M h))).
  { intros i Hi. rewrite F2, G1, F0; [apply HV, Hi|apply OY, Hi|apply DY; [lia|exact Hi]|exact Qy|apply OY, Hi|apply OY, Hi|apply Hb, Qy]. }
  destruct (stored_ok m2 x N (fun i => cmul (transform fwd0 N (padded M h) i) (transform fwd0 N X i))) as (m3 & S3 & G3).
  assert (H3 : fft_history b (Some N) m3).
  { eapply h_other; [exact H2|]. intros l Hl. apply G3. intros (j & _ & ->). apply Qx. exact Hl. }
  destruct (fft_call b N invn x m3 _ HN H3 Qx S3) as (m4 & O4 & R4 & F4 & H4).
  assert (HZ : holds m4 (x +! (M - 1)) L (fun i => filtered M h X i)).
  { intros i Hi. rewrite padd_padd. rewrite (R4 (M - 1 + i)) by lia. f_equal. rewrite (transform_circ fwd0 fwd0 invn) by (auto; lia). apply circ_valid; auto. }
  destruct (stored_ok m4 (d +! K * L) L (fun i => filtered M h X i)) as (m5 & S5 & G5).
  assert (Hin : forall l, ~ inR d (S K * L) l -> ~ inR (d +! K * L) L l).
  { intros l Hl (j & Hj & ->). apply Hl. exists (K * L + j). split; [nia|]. rewrite padd_padd. reflexivity. }
  assert (F5 : forall l, ~ inR x N l -> ~ inR (d +! K * L) L l -> ~ fft_own b (fst l) -> m5 l = m0 l).
  { intros l L1 L2 L3. assert (Lb : ~ inR ((b + 3)%nat, 0) N l) by (intros (j & _ & ->); apply L3; cbn; unfold fft_own; lia).
    rewrite G5, F4, G3, F2, G1 by assumption. reflexivity. }
  exists m5. split; [|split; [|split]].
  - eapply (os_pass b N M s x y d K m m0 m1 m2 m3 m4 m5); [exact B0|exact HX0|split; [exact S1|exact G1]|exact O2|exact R2|exact HV2|split; [exact S3|exact G3]|exact O4|exact HZ|split; [exact S5|exact G5]].
  - intros i Hi. destruct (Nat.lt_ge_cases i (K * L)) as [Hlt|Hge].
    + rewrite F5; [apply R0; exact Hlt|apply OD; nia| |exact Qd]. intros (j & Hj & E). rewrite padd_padd in E. apply padd_inj in E. lia.
    + replace i with (K * L + (i - K * L)) at 1 by lia. rewrite <- padd_padd, (S5 (i - K * L)) by nia. f_equal. unfold filtered, X. apply csum_ext. intros j Hj. f_equal. f_equal. lia.
  - intros l L1 L2 L3. rewrite F5; [apply F0; auto|exact L1|apply Hin, L2|exact L3]. intros (j & Hj & ->). apply L2. exists j. split; [nia|reflexivity].
  - eapply h_other; [exact H4|]. intros l Hl. apply G5. intros (j & _ & ->). apply Qd. exact Hl.
Qed.


(** ** Every run of the loop: two runs from the same memory end in the same memory *)
Lemma inR_dec p n l : {inR p n l} + {~ inR p n l}.
Proof.
  destruct ((fst l =? fst p) && (snd p <=? snd l) && (snd l <? snd p + n)) eqn:E; [left|right].
  - apply andb_prop in E as [E E3]. apply andb_prop in E as [E1 E2]. apply Nat.eqb_eq in E1. apply Nat.leb_le in E2. apply Nat.ltb_lt in E3.
    exists (snd l - snd p). split; [lia|]. destruct l as [c o], p as [c' o']. unfold padd. cbn [fst snd] in *. subst. f_equal. lia.
  - intros (i & Hi & ->). unfold padd in E. cbn [fst snd] in E. rewrite Nat.eqb_refl, (proj2 (Nat.leb_le _ _)), (proj2 (Nat.ltb_lt _ _)) in E by lia. discriminate.
Qed.
Lemma Outcome_same (c : list (act CC)) (m m1 m2 : mem CC) : Outcome c m m1 -> Outcome c m m2 -> m1 = m2.
Proof.
  intros [[a Ha] U1 _ _ _ _] [_ U2 _ _ _ _]. apply FunctionalExtensionality.functional_extensionality. intros l.
  rewrite <- (U1 a Ha l). apply U2, Ha.
Qed.
Lemma stored_same (m m1 m2 : mem CC) p n X Y : (forall i, i < n -> X i = Y i) -> stored m p n X m1 -> stored m p n Y m2 -> m1 = m2.
Proof.
  intros E [H1 F1] [H2 F2]. apply FunctionalExtensionality.functional_extensionality. intros l.
  destruct (inR_dec p n l) as [(i & Hi & ->)|Hl]; [rewrite H1, H2, E; auto|rewrite F1, F2; auto].
Qed.
Lemma holds_val (m : mem CC) p n X Y i : holds m p n X -> holds m p n Y -> i < n -> X i = Y i.
Proof. intros H1 H2 Hi. pose proof (H1 i Hi) as A. rewrite (H2 i Hi) in A. injection A. auto. Qed.
Lemma overlap_save_same b N M s x y d T (m m1 m2 : mem CC) : overlap_save b N M s x y d T m m1 -> overlap_save b N M s x y d T m m2 -> m1 = m2.
Proof.
  intros H. revert m2. induction H as [|T m m0 m1 m2 m3 m4 m5 X U V Z L H IH HX S1 O2 HU HV S3 O4 HZ S5]; intros m' H'; [inversion H'; reflexivity|].
  inversion H' as [|T' n n0 n1 n2 n3 n4 n5 X' U' V' Z' L' G GX GS1 GO2 GU GV GS3 GO4 GZ GS5]. subst.
  apply IH in G. subst n0. assert (n1 = m1) by (eapply stored_same; [|exact GS1|exact S1]; intros i Hi; eapply holds_val; eauto). subst n1.
  pose proof (Outcome_same _ _ _ _ GO2 O2) as E. subst n2.
  assert (n3 = m3) by (eapply stored_same; [|exact GS3|exact S3]; intros i Hi; cbv beta; f_equal; eapply holds_val; eauto). subst n3.
  pose proof (Outcome_same _ _ _ _ GO4 O4) as E. subst n4.
  eapply stored_same; [|exact S5|exact GS5]. intros i Hi. eapply holds_val; eauto.
Qed.

(** so whatever the loop leaves in the output is the filtered signal *)
Corollary C71_every_run : forall b N M T s x y d (m m' : mem CC) h sig,
  valid_length N -> 0 < M <= N -> fft_history b (Some N) m -> (forall p, In p [s; x; y; d] -> ~ fft_own b (fst p)) ->
  let L := N - (M - 1) in
  disjR x N s (T * L + (M - 1)) -> disjR x N y N -> disjR x N d (T * L) -> disjR d (T * L) s (T * L + (M - 1)) -> disjR d (T * L) y N ->
  holds m s (T * L + (M - 1)) sig -> holds m y N (transform fwd0 N (padded M h)) ->
  overlap_save b N M s x y d T m m' -> holds m' d (T * L) (filtered M h sig).
Proof.
  intros b N M T s x y d m m' h sig HN HM Hh Hq L D1 D2 D3 D4 D5 HS HV H.
  destruct (C71_overlap_save b N M T s x y d m h sig HN HM Hh Hq D1 D2 D3 D4 D5 HS HV) as (m1 & H1 & R & _).
  rewrite (overlap_save_same _ _ _ _ _ _ _ _ _ _ _ H H1). exact R.
Qed.


(** With M - 1 zeros in front of a signal v the output is the response of the causal filter with impulse response h: y(n) = h(0) v(n) + h(1) v(n-1) + ... *)
Definition causal (M : nat) (h v : nat -> CC) (n : nat) : CC := csum M (fun j => if j <=? n then cmul (h j) (v (n - j)) else (0, 0)%R).
Corollary C71_causal_filter : forall b N M T s x y d (m m' : mem CC) h v,
  valid_length N -> 0 < M <= N -> fft_history b (Some N) m -> (forall p, In p [s; x; y; d] -> ~ fft_own b (fst p)) ->
  let L := N - (M - 1) in
  disjR x N s (T * L + (M - 1)) -> disjR x N y N -> disjR x N d (T * L) -> disjR d (T * L) s (T * L + (M - 1)) -> disjR d (T * L) y N ->
  holds m s (T * L + (M - 1)) (fun i => if i <? M - 1 then (0, 0)%R else v (i - (M - 1))) -> holds m y N (transform fwd0 N (padded M h)) ->
  overlap_save b N M s x y d T m m' -> holds m' d (T * L) (causal M h v).
Proof.
  intros b N M T s x y d m m' h v HN HM Hh Hq L D1 D2 D3 D4 D5 HS HV H n Hn.
  rewrite (C71_every_run b N M T s x y d m m' h _ HN HM Hh Hq D1 D2 D3 D4 D5 HS HV H n Hn). f_equal. unfold filtered, causal.
  apply csum_ext. intros j Hj. destruct (Nat.leb_spec j n) as [Hjn|Hjn].
  - rewrite (proj2 (Nat.ltb_ge _ _)) by lia. f_equal. f_equal. lia.
  - rewrite (proj2 (Nat.ltb_lt _ _)) by lia. generalize (h j). intros z. csimp; ring.
Qed.
(** the spectrum of the kernel comes from a call of fwd0 on the same object *)
Theorem C71_kernel_spectrum : forall b N M y (m : mem CC) h, valid_length N -> fft_history b (Some N) m -> ~ fft_own b (fst y) ->
  holds m y N (padded M h) -> exists m', Outcome (fft_run b N fwd0 y) m m' /\ holds m' y N (transform fwd0 N (padded M h)) /\ fft_history b (Some N) m'.
Proof. intros b N M y m h HN Hh Hy HY. destruct (fft_call b N fwd0 y m _ HN Hh Hy HY) as (m' & O & R & _ & H). exists m'. auto. Qed.

(** ** The hypotheses are met: a kernel of 10 coefficients, blocks of 64 elements, any number of passes, any data *)
Example C71_hypotheses_met : forall b T (h sig : nat -> CC), exists (m : mem CC),
  let s := (b + 4, 0) in let x := (b + 5, 0) in let y := (b + 6, 0) in let d := (b + 7, 0) in
  valid_length 64 /\ fft_history b (Some 64) m /\ (forall p, In p [s; x; y; d] -> ~ fft_own b (fst p)) /\
  disjR x 64 s (T * 55 + 9) /\ disjR x 64 y 64 /\ disjR x 64 d (T * 55) /\ disjR d (T * 55) s (T * 55 + 9) /\ disjR d (T * 55) y 64 /\
  holds m s (T * 55 + 9) sig /\ holds m y 64 (transform fwd0 64 (padded 10 h)).
Proof.
  intros b T h sig. assert (Hx : ~ fft_own b (b + 5)) by (unfold fft_own; lia).
  destruct (complex_hypotheses_met ROps b 64 (b + 5, 0) (fun _ => (0, 0)%R) Hx) as (m1 & H1 & _).
  exists (fun l : loc => if fst l <=? b + 3 then m1 l else if fst l =? b + 4 then Val (sig (snd l)) else Val (transform fwd0 64 (padded 10 h) (snd l))).
  cbv zeta. split; [apply (proj1 valid_lengths 6); lia|]. split; [|split].
  - eapply h_other; [exact H1|]. intros l Hl. unfold fft_own in Hl. rewrite (proj2 (Nat.leb_le _ _)) by lia. reflexivity.
  - intros p Hp. cbn [In] in Hp. unfold fft_own. repeat (destruct Hp as [<-|Hp]; [cbn [fst]; lia|]). destruct Hp.
  - repeat (split; [intros i j _ _ E; unfold padd in E; cbn [fst snd] in E; injection E; lia|]). split.
    + intros i Hi. unfold padd. cbn [fst snd]. rewrite (proj2 (Nat.leb_gt _ _)), Nat.eqb_refl by lia. reflexivity.
    + intros i Hi. unfold padd. cbn [fst snd]. rewrite (proj2 (Nat.leb_gt _ _)), (proj2 (Nat.eqb_neq _ _)) by lia. reflexivity.
Qed.

Print Assumptions C71_overlap_save.
Print Assumptions C71_every_run.
Print Assumptions C71_kernel_spectrum.
Print Assumptions C71_hypotheses_met.
Print Assumptions C71_causal_filter.
