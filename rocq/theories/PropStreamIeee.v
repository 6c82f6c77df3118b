(** * C71 on IEEE doubles: overlap-save filtering of integers is exact, however long the signal

    The loop of PropStream.v for any arithmetic ([prod] is the client's multiplication), and its consequence for integers: the rounded output
    is the linear convolution, with a bound that depends on the block length and the size of the data only. *)

From Coq Require Import Reals ZArith List Arith Bool Lia Lra FunctionalExtensionality.
From Flocq Require Import Core.Core IEEE754.BinarySingleNaN.
From Verif Require Import Scalar RealOps Spec DftFacts Norm Simd Round Mem MemFacts Omp Lanes Stage Object Engine ApiSpec FactorFacts
  ModelApi History ApiFacts ApiExact Footprint ComplexThms PropConvolution RoundMixed RoundApi PropAccuracy Param ParamKern ParamFft Ieee64 PropIeee Grade GradeFft PropOverflow
  PropConvAccuracy PropComplex PropStream.
Import ListNotations.
Local Open Scope nat_scope.

Section Generic.
Context {Op : Ops}.
Variable prod : C -> C -> C.
(** the client stores the n elements X at p *)
Definition stored_g (m : mem C) (p : ptr) (n : nat) (X : nat -> C) (m' : mem C) : Prop :=
  holds m' p n X /\ forall l, ~ inR p n l -> m' l = m l.
(** T passes of the loop: signal in s, work array x, spectrum of the kernel in y, output in d; M coefficients, length N *)
Inductive overlap_save_g (b N M : nat) (s x y d : ptr) : nat -> mem C -> mem C -> Prop :=
| osg_0 m : overlap_save_g b N M s x y d 0 m m
| osg_pass T m m0 m1 m2 m3 m4 m5 X U V Z : let L := N - (M - 1) in
    overlap_save_g b N M s x y d T m m0 ->
    holds m0 (s +! T * L) N X -> stored_g m0 x N X m1 ->
    Outcome (fft_run b N fwd0 x) m1 m2 ->
    holds m2 x N U -> holds m2 y N V -> stored_g m2 x N (fun i => prod (V i) (U i)) m3 ->
    Outcome (fft_run b N invn x) m3 m4 ->
    holds m4 (x +! (M - 1)) L Z -> stored_g m4 (d +! T * L) L Z m5 ->
    overlap_save_g b N M s x y d (S T) m m5.
(** element n of the output: an element of the block n / L *)
Definition streamed (N M : nat) (V sig : nat -> C) (n : nat) : C := let L := N - (M - 1) in
  fft0_F N invn (fun i => prod (V i) (fft0_F N fwd0 (fun j => sig (n / L * L + j)) i)) (M - 1 + n mod L).
Lemma stored_ok_g (m : mem C) p n X : exists m', stored_g m p n X m'.
Proof.
  exists (fun l : loc => if (fst l =? fst p) && (snd p <=? snd l) && (snd l <? snd p + n) then Val (X (snd l - snd p)) else m l). split.
  - intros i Hi. unfold padd. cbn [fst snd]. rewrite Nat.eqb_refl, (proj2 (Nat.leb_le _ _)), (proj2 (Nat.ltb_lt _ _)) by lia. cbn [andb]. do 2 f_equal. lia.
  - intros l Hl. destruct ((fst l =? fst p) && (snd p <=? snd l) && (snd l <? snd p + n)) eqn:E; [|reflexivity].
    exfalso. apply andb_prop in E as [E E3]. apply andb_prop in E as [E1 E2]. apply Nat.eqb_eq in E1. apply Nat.leb_le in E2. apply Nat.ltb_lt in E3.
    apply Hl. exists (snd l - snd p). split; [lia|]. destruct l as [c o], p as [c' o']. unfold padd. cbn [fst snd] in *. subst. f_equal. lia.
Qed.
Lemma Outcome_same_g (c : list (act C)) (m m1 m2 : mem C) : Outcome c m m1 -> Outcome c m m2 -> m1 = m2.
Proof.
  intros [[a Ha] U1 _ _ _ _] [_ U2 _ _ _ _]. apply FunctionalExtensionality.functional_extensionality. intros l.
  rewrite <- (U1 a Ha l). apply U2, Ha.
Qed.
Lemma stored_same_g (m m1 m2 : mem C) p n X Y : (forall i, i < n -> X i = Y i) -> stored_g m p n X m1 -> stored_g m p n Y m2 -> m1 = m2.
Proof.
  intros E [H1 F1] [H2 F2]. apply FunctionalExtensionality.functional_extensionality. intros l.
  destruct (inR_dec p n l) as [(i & Hi & ->)|Hl]; [rewrite H1, H2, E; auto|rewrite F1, F2; auto].
Qed.
Lemma holds_val_g (m : mem C) p n X Y i : holds m p n X -> holds m p n Y -> i < n -> X i = Y i.
Proof. intros H1 H2 Hi. pose proof (H1 i Hi) as A. rewrite (H2 i Hi) in A. injection A. auto. Qed.
Lemma overlap_save_same_g b N M s x y d T (m m1 m2 : mem C) : overlap_save_g b N M s x y d T m m1 -> overlap_save_g b N M s x y d T m m2 -> m1 = m2.
Proof.
  intros H. revert m2. induction H as [|T m m0 m1 m2 m3 m4 m5 X U V Z L H IH HX S1 O2 HU HV S3 O4 HZ S5]; intros m' H'; [inversion H'; reflexivity|].
  inversion H' as [|T' n n0 n1 n2 n3 n4 n5 X' U' V' Z' L' G GX GS1 GO2 GU GV GS3 GO4 GZ GS5]. subst.
  apply IH in G. subst n0. assert (n1 = m1) by (eapply stored_same_g; [|exact GS1|exact S1]; intros i Hi; eapply holds_val_g; eauto). subst n1.
  pose proof (Outcome_same_g _ _ _ _ GO2 O2) as E. subst n2.
  assert (n3 = m3) by (eapply stored_same_g; [|exact GS3|exact S3]; intros i Hi; cbv beta; f_equal; eapply holds_val_g; eauto). subst n3.
  pose proof (Outcome_same_g _ _ _ _ GO4 O4) as E. subst n4.
  eapply stored_same_g; [|exact S5|exact GS5]. intros i Hi. eapply holds_val_g; eauto.
Qed.

Theorem stream_any : forall b N M T s x y d (m : mem C) V sig,
  valid_length N -> 0 < M <= N -> fft_history b (Some N) m -> (forall p, In p [s; x; y; d] -> ~ fft_own b (fst p)) ->
  let L := N - (M - 1) in
  disjR x N s (T * L + (M - 1)) -> disjR x N y N -> disjR x N d (T * L) -> disjR d (T * L) s (T * L + (M - 1)) -> disjR d (T * L) y N ->
  holds m s (T * L + (M - 1)) sig -> holds m y N V ->
  exists m', overlap_save_g b N M s x y d T m m' /\ holds m' d (T * L) (streamed N M V sig) /\
    (forall l, ~ inR x N l -> ~ inR d (T * L) l -> ~ fft_own b (fst l) -> m' l = m l) /\ fft_history b (Some N) m'.
Proof.
  intros b N M T s x y d m V sig HN HM Hh Hq L Dxs Dxy Dxd Dds Ddy HS HV.
  assert (HNp : 0 < N) by (unfold valid_length in HN; lia). assert (HL : 0 < L) by (unfold L; lia). assert (EL : N = L + (M - 1)) by (unfold L; lia).
  pose proof (Hq s ltac:(cbn; auto)) as Qs. pose proof (Hq x ltac:(cbn; auto)) as Qx. pose proof (Hq y ltac:(cbn; auto)) as Qy. pose proof (Hq d ltac:(cbn; auto)) as Qd. clear Hq.
  assert (G : forall R, R <= T -> exists m', overlap_save_g b N M s x y d R m m' /\ holds m' d (R * L) (streamed N M V sig) /\
    (forall l, ~ inR x N l -> ~ inR d (R * L) l -> ~ fft_own b (fst l) -> m' l = m l) /\ fft_history b (Some N) m').
  2:{ apply G. lia. }
  intros K. induction K as [|K IH]; intros HR.
  { exists m. split; [constructor|]. split; [intros i Hi; lia|]. split; [auto|exact Hh]. }
  destruct (IH ltac:(lia)) as (m0 & B0 & R0 & F0 & H0).
  assert (Hb : forall p, ~ fft_own b (fst p) -> forall i, ~ inR ((b + 3)%nat, 0) N (p +! i)).
  { intros p Hp i (j & _ & E). apply Hp. apply (f_equal fst) in E. cbn in E. rewrite E. unfold fft_own. lia. }
  assert (OS : forall i, i < T * L + (M - 1) -> ~ inR x N (s +! i)) by (intros i Hi (j & Hj & E); exact (Dxs j i Hj Hi (eq_sym E))).
  assert (OY : forall i, i < N -> ~ inR x N (y +! i)) by (intros i Hi (j & Hj & E); exact (Dxy j i Hj Hi (eq_sym E))).
  assert (OD : forall i, i < T * L -> ~ inR x N (d +! i)) by (intros i Hi (j & Hj & E); exact (Dxd j i Hj Hi (eq_sym E))).
  assert (DS : forall r i, r <= T -> i < T * L + (M - 1) -> ~ inR d (r * L) (s +! i)) by (intros r i Hr Hi (j & Hj & E); refine (Dds j i _ Hi (eq_sym E)); nia).
  assert (DY : forall r i, r <= T -> i < N -> ~ inR d (r * L) (y +! i)) by (intros r i Hr Hi (j & Hj & E); refine (Ddy j i _ Hi (eq_sym E)); nia).
  (* copy in *)
  set (X := fun i => sig (K * L + i)).
  assert (HX0 : holds m0 (s +! K * L) N X).
  { intros i Hi. rewrite padd_padd. rewrite F0; [apply HS; nia|apply OS; nia|apply DS; [lia|nia]|exact Qs]. }
  destruct (stored_ok_g m0 x N X) as (m1 & S1 & G1).
  assert (H1 : fft_history b (Some N) m1).
  { eapply h_other; [exact H0|]. intros l Hl. apply G1. intros (j & _ & ->). apply Qx. exact Hl. }
  destruct (fft_call_any b N fwd0 x m1 X HN H1 Qx S1) as (m2 & O2 & R2 & F2 & H2).
  assert (HV2 : holds m2 y N V).
  { intros i Hi. rewrite F2, G1, F0; [apply HV, Hi|apply OY, Hi|apply DY; [lia|exact Hi]|exact Qy|apply OY, Hi|apply OY, Hi|apply Hb, Qy]. }
  destruct (stored_ok_g m2 x N (fun i => prod (V i) (fft0_F N fwd0 X i))) as (m3 & S3 & G3).
  assert (H3 : fft_history b (Some N) m3).
  { eapply h_other; [exact H2|]. intros l Hl. apply G3. intros (j & _ & ->). apply Qx. exact Hl. }
  destruct (fft_call_any b N invn x m3 _ HN H3 Qx S3) as (m4 & O4 & R4 & F4 & H4).
  set (Zf := fft0_F N invn (fun i => prod (V i) (fft0_F N fwd0 X i))) in *.
  assert (HZ : holds m4 (x +! (M - 1)) L (fun i => Zf (M - 1 + i))).
  { intros i Hi. rewrite padd_padd. apply (R4 (M - 1 + i)). lia. }
  destruct (stored_ok_g m4 (d +! K * L) L (fun i => Zf (M - 1 + i))) as (m5 & S5 & G5).
  assert (Hin : forall l, ~ inR d (S K * L) l -> ~ inR (d +! K * L) L l).
  { intros l Hl (j & Hj & ->). apply Hl. exists (K * L + j). split; [nia|]. rewrite padd_padd. reflexivity. }
  assert (F5 : forall l, ~ inR x N l -> ~ inR (d +! K * L) L l -> ~ fft_own b (fst l) -> m5 l = m0 l).
  { intros l L1 L2 L3. assert (Lb : ~ inR ((b + 3)%nat, 0) N l) by (intros (j & _ & ->); apply L3; cbn; unfold fft_own; lia).
    rewrite G5, F4, G3, F2, G1 by assumption. reflexivity. }
  exists m5. split; [|split; [|split]].
  - eapply (osg_pass b N M s x y d K m m0 m1 m2 m3 m4 m5); [exact B0|exact HX0|split; [exact S1|exact G1]|exact O2|exact R2|exact HV2|split; [exact S3|exact G3]|exact O4|exact HZ|split; [exact S5|exact G5]].
  - intros i Hi. destruct (Nat.lt_ge_cases i (K * L)) as [Hlt|Hge].
    + rewrite F5; [apply R0; exact Hlt|apply OD; nia| |exact Qd]. intros (j & Hj & E). rewrite padd_padd in E. apply padd_inj in E. lia.
    + replace i with (K * L + (i - K * L)) at 1 by lia. rewrite <- padd_padd, (S5 (i - K * L)) by nia. f_equal. unfold streamed, Zf. change (N - (M - 1)) with L.
      assert (Ed : i / L = K) by (symmetry; apply (Nat.div_unique i L K (i - K * L)); nia).
      assert (Em : i mod L = i - K * L) by (symmetry; apply (Nat.mod_unique i L K (i - K * L)); nia).
      rewrite Ed, Em. reflexivity.
  - intros l L1 L2 L3. rewrite F5; [apply F0; auto|exact L1|apply Hin, L2|exact L3]. intros (j & Hj & ->). apply L2. exists j. split; [nia|reflexivity].
  - eapply h_other; [exact H4|]. intros l Hl. apply G5. intros (j & _ & ->). apply Qd. exact Hl.
Qed.


End Generic.

(** the linear convolution of integers *)
Definition zfiltered (M : nat) (h sig : nat -> Z) (n : nat) : Z := zsum M (fun j => (h j * sig (n + (M - 1) - j)%nat)%Z).
Definition zpadded (M : nat) (h : nat -> Z) (j : nat) : Z := if j <? M then h j else 0%Z.

Lemma zcirc_valid N M h (c : nat -> Z) i : 0 < M <= N -> i < N - (M - 1) -> zcirc N (zpadded M h) c (M - 1 + i) = zfiltered M h c i.
Proof.
  intros HM Hi. assert (E : forall a b : Z, rc (IZR a) = rc (IZR b) -> a = b) by (intros a b E; apply (f_equal fst) in E; apply eq_IZR; exact E). apply E. clear E.
  rewrite <- (circ_Z N (fun j => rc (IZR (zpadded M h j))) (fun j => rc (IZR (c j)))) by auto.
  transitivity (circ N (padded M (fun j => rc (IZR (h j)))) (fun j => rc (IZR (c j))) (M - 1 + i)).
  { unfold circ. apply csum_ext. intros j _. f_equal. unfold zpadded, padded. destruct (j <? M); reflexivity. }
  rewrite circ_valid by auto. unfold filtered, zfiltered. rewrite <- csum_Z. apply csum_ext. intros j _. rewrite mult_IZR. csimp; ring.
Qed.

(** the numbers one block computes, from C58 *)
Lemma int_block dc ds lam : libm dc ds lam -> (lam <= 1)%R -> forall bd bd' N X Y (a c : nat -> Z) ps e1 e2,
  valid_length N -> factorisation ps N -> (forall i, i < N -> bounded e1 (X i) /\ bounded e2 (Y i)) -> e1 + e2 + 30 * Nat.log2 N + 1 <= 1023 ->
  (forall i, i < N -> val (X i) = rc (IZR (a i)) /\ val (Y i) = rc (IZR (c i))) ->
  (conv_bound (bound64 lam ps) u64 (floor64 N) N (fun i => rc (IZR (a i))) (fun i => rc (IZR (c i))) < / 2)%R ->
  forall i, i < N -> let Z := @fft0_F (ieee dc ds bd) N invn (fun i => @cmul (ieee dc ds bd') (@fft0_F (ieee dc ds bd) N fwd0 X i) (@fft0_F (ieee dc ds bd) N fwd0 Y i)) i in
    finite_c Z /\ ZnearestE (B2R (fst Z)) = zcirc N a c i /\ ZnearestE (B2R (snd Z)) = 0%Z.
Proof.
  intros L Hl bd bd' N X Y a c ps e1 e2 HN Hp HB He Hac Hb i Hi.
  assert (Hx : ~ fft_own 0 4) by (unfold fft_own; lia). assert (Hy : ~ fft_own 0 5) by (unfold fft_own; lia).
  destruct (complex_hypotheses_met (ieee dc ds bd) 0 N (4, 0) X Hx) as (m0 & Hh0 & HX0).
  destruct (stored_ok_g (Op := ieee dc ds bd) m0 (5, 0) N Y) as (m & HY & F).
  assert (Hh : fft_history 0 (Some N) m).
  { eapply h_other; [exact Hh0|]. intros l Hl'. apply F. intros (j & _ & ->). apply Hy. exact Hl'. }
  assert (HX : holds m (4, 0) N X).
  { intros j Hj. rewrite F; [apply HX0, Hj|]. intros (j' & _ & E). apply (f_equal fst) in E. cbn in E. discriminate. }
  assert (Hd : disjR (4, 0) N (5, 0) N) by (apply disjR_buf; cbn; discriminate).
  destruct (C58_integer_convolution dc ds lam L Hl bd bd' 0 N (4, 0) (5, 0) m X Y a c ps e1 e2 HN Hh Hx Hy Hd HX HY Hp HB He Hac Hb) as (m1 & m2 & U & V & O1 & O2 & A1 & A2 & K).
  destruct (conv_calls (ieee dc ds bd) 0 N (4, 0) (5, 0) m X Y HN Hh Hx Hy Hd HX HY) as (n1 & n2 & P1 & P2 & B1 & B2 & K').
  pose proof (Outcome_same_g (Op := ieee dc ds bd) _ _ _ _ O1 P1) as E1. subst n1. pose proof (Outcome_same_g (Op := ieee dc ds bd) _ _ _ _ O2 P2) as E2. subst n2.
  destruct (stored_ok_g (Op := ieee dc ds bd) m2 (4, 0) N (fun i => @cmul (ieee dc ds bd') (U i) (V i))) as (m3 & S3 & F3).
  assert (Hf : forall l, fft_own 0 (fst l) -> m3 l = m2 l).
  { intros l Hl'. apply F3. intros (j & _ & ->). apply Hx. exact Hl'. }
  destruct (K m3 Hf S3) as (m4 & Z & O4 & R4 & W).
  set (Q := fun i => @cmul (ieee dc ds bd') (@fft0_F (ieee dc ds bd) N fwd0 X i) (@fft0_F (ieee dc ds bd) N fwd0 Y i)).
  assert (S3' : holds m3 (4, 0) N Q).
  { intros j Hj. rewrite (S3 j Hj). unfold Q. rewrite (holds_val_g (Op := ieee dc ds bd) _ _ _ _ _ j A1 B1 Hj), (holds_val_g (Op := ieee dc ds bd) _ _ _ _ _ j A2 B2 Hj). reflexivity. }
  destruct (K' m3 Q Hf S3') as (n4 & P4 & R4'). pose proof (Outcome_same_g (Op := ieee dc ds bd) _ _ _ _ O4 P4) as E4. subst n4.
  cbv zeta. fold Q. rewrite <- (holds_val_g (Op := ieee dc ds bd) _ _ _ _ _ i R4 R4' Hi). apply W, Hi.
Qed.

Theorem C71_integer_stream : forall dc ds lam, libm dc ds lam -> (lam <= 1)%R -> forall bd bd' b N M T s x y d (m : mem (@C (ieee dc ds bd))) H X (h sig : nat -> Z) ps e1 e2,
  valid_length N -> 0 < M <= N -> fft_history b (Some N) m -> (forall p, In p [s; x; y; d] -> ~ fft_own b (fst p)) ->
  let L := N - (M - 1) in
  disjR x N s (T * L + (M - 1)) -> disjR x N y N -> disjR x N d (T * L) -> disjR d (T * L) s (T * L + (M - 1)) -> disjR d (T * L) y N ->
  (* the signal, and the spectrum of the kernel as a call of fwd0 leaves it in y (C71_ieee_kernel) *)
  holds m s (T * L + (M - 1)) X -> holds m y N (@fft0_F (ieee dc ds bd) N fwd0 H) ->
  factorisation ps N -> (forall i, i < N -> bounded e1 (H i) /\ val (H i) = rc (IZR (zpadded M h i))) ->
  (forall i, i < T * L + (M - 1) -> bounded e2 (X i) /\ val (X i) = rc (IZR (sig i))) -> e1 + e2 + 30 * Nat.log2 N + 1 <= 1023 ->
  (forall k, k < T -> (conv_bound (bound64 lam ps) u64 (floor64 N) N (fun i => rc (IZR (zpadded M h i))) (fun i => rc (IZR (sig (k * L + i)%nat))) < / 2)%R) ->
  exists m' Z, overlap_save_g (Op := ieee dc ds bd) (@cmul (ieee dc ds bd')) b N M s x y d T m m' /\ holds m' d (T * L) Z /\
    forall n, n < T * L -> finite_c (Z n) /\ ZnearestE (B2R (fst (Z n))) = zfiltered M h sig n /\ ZnearestE (B2R (snd (Z n))) = 0%Z.
Proof.
  intros dc ds lam Li Hl bd bd' b N M T s x y d m H X h sig ps e1 e2 HN HM Hh Hq L D1 D2 D3 D4 D5 HX HV Hp HH HS He Hb.
  assert (HL : 0 < L) by (unfold L; lia). assert (EL : N = L + (M - 1)) by (unfold L; lia).
  destruct (stream_any (Op := ieee dc ds bd) (@cmul (ieee dc ds bd')) b N M T s x y d m _ X HN HM Hh Hq D1 D2 D3 D4 D5 HX HV) as (m' & A & B & _).
  exists m', (streamed (Op := ieee dc ds bd) (@cmul (ieee dc ds bd')) N M (@fft0_F (ieee dc ds bd) N fwd0 H) X). split; [exact A|]. split; [exact B|].
  intros n Hn. pose proof (Nat.div_mod n L ltac:(lia)) as En. pose proof (Nat.mod_upper_bound n L ltac:(lia)) as Hm.
  assert (Hk : n / L < T) by (apply Nat.div_lt_upper_bound; lia).
  unfold streamed. fold L. cbv zeta.
  set (k := n / L) in *. set (i := n mod L) in *. clearbody k i.
  assert (KL : k * L + L <= T * L) by nia.
  replace (zfiltered M h sig n) with (zcirc N (zpadded M h) (fun j => sig (k * L + j)) (M - 1 + i)).
  - apply (int_block dc ds lam Li Hl bd bd' N H (fun j => X (k * L + j)) (zpadded M h) (fun j => sig (k * L + j)) ps e1 e2 HN Hp).
    + intros j Hj. split; [apply HH, Hj|apply HS; lia].
    + exact He.
    + intros j Hj. split; [apply HH, Hj|apply HS; lia].
    + apply Hb, Hk.
    + lia.
  - rewrite zcirc_valid by (auto; lia). unfold zfiltered. apply zsum_ext. intros j Hj. do 2 f_equal. lia.
Qed.
Print Assumptions C71_integer_stream.

(** the spectrum of the kernel comes from a call of fwd0 on the same object *)
Theorem C71_ieee_kernel : forall (Op : Ops) b N y (m : mem C) H, valid_length N -> fft_history b (Some N) m -> ~ fft_own b (fst y) ->
  holds m y N H -> exists m', Outcome (fft_run b N fwd0 y) m m' /\ holds m' y N (fft0_F N fwd0 H) /\ fft_history b (Some N) m'.
Proof. intros Op b N y m H HN Hh Hy HY. destruct (fft_call_any b N fwd0 y m _ HN Hh Hy HY) as (m' & O & R & _ & K). exists m'. auto. Qed.

(** the bound on the data: blocks of 1024 elements, kernel and signal of at most 10 bits, an ideal libm *)
Example C71_integer_bound : forall M (h sig : nat -> Z), (forall i, (Z.abs (h i) <= 1023)%Z /\ (Z.abs (sig i) <= 1023)%Z) -> forall k,
  (conv_bound (bound64 u64 (repeat 2%nat 10)) u64 (floor64 1024) 1024 (fun i => rc (IZR (zpadded M h i))) (fun i => rc (IZR (sig (k * (1024 - (M - 1)) + i)%nat))) < / 2)%R.
Proof.
  intros M h sig Hb k. apply (C58_integers (zpadded M h) (fun i => sig (k * (1024 - (M - 1)) + i))). intros i. split; [|apply Hb].
  unfold zpadded. destruct (i <? M); [apply Hb|cbn; lia].
Qed.

(** whatever a run of the loop leaves in the output is determined by the memory it starts from *)
Corollary C71_integer_every_run : forall dc ds lam, libm dc ds lam -> (lam <= 1)%R -> forall bd bd' b N M T s x y d (m m' : mem (@C (ieee dc ds bd))) H X (h sig : nat -> Z) ps e1 e2,
  valid_length N -> 0 < M <= N -> fft_history b (Some N) m -> (forall p, In p [s; x; y; d] -> ~ fft_own b (fst p)) ->
  let L := N - (M - 1) in
  disjR x N s (T * L + (M - 1)) -> disjR x N y N -> disjR x N d (T * L) -> disjR d (T * L) s (T * L + (M - 1)) -> disjR d (T * L) y N ->
  holds m s (T * L + (M - 1)) X -> holds m y N (@fft0_F (ieee dc ds bd) N fwd0 H) ->
  factorisation ps N -> (forall i, i < N -> bounded e1 (H i) /\ val (H i) = rc (IZR (zpadded M h i))) ->
  (forall i, i < T * L + (M - 1) -> bounded e2 (X i) /\ val (X i) = rc (IZR (sig i))) -> e1 + e2 + 30 * Nat.log2 N + 1 <= 1023 ->
  (forall k, k < T -> (conv_bound (bound64 lam ps) u64 (floor64 N) N (fun i => rc (IZR (zpadded M h i))) (fun i => rc (IZR (sig (k * L + i)%nat))) < / 2)%R) ->
  overlap_save_g (Op := ieee dc ds bd) (@cmul (ieee dc ds bd')) b N M s x y d T m m' ->
  forall n, n < T * L -> exists z, m' (d +! n) = Val z /\ finite_c z /\ ZnearestE (B2R (fst z)) = zfiltered M h sig n /\ ZnearestE (B2R (snd z)) = 0%Z.
Proof.
  intros dc ds lam Li Hl bd bd' b N M T s x y d m m' H X h sig ps e1 e2 HN HM Hh Hq L D1 D2 D3 D4 D5 HX HV Hp HH HS He Hb R n Hn.
  destruct (C71_integer_stream dc ds lam Li Hl bd bd' b N M T s x y d m H X h sig ps e1 e2 HN HM Hh Hq D1 D2 D3 D4 D5 HX HV Hp HH HS He Hb) as (m1 & Z & R1 & HZ & W).
  pose proof (overlap_save_same_g (Op := ieee dc ds bd) _ _ _ _ _ _ _ _ _ _ _ _ R R1) as E. subst m1. exists (Z n). split; [apply HZ, Hn|apply W, Hn].
Qed.
Print Assumptions C71_integer_every_run.

(** the hypotheses on memory are met, for any arithmetic and any data: a kernel of 10 coefficients, blocks of 64 elements *)
Example C71_stream_hypotheses_met : forall (Op : Ops) b T (V X : nat -> @C Op), exists (m : mem C),
  let s := (b + 4, 0) in let x := (b + 5, 0) in let y := (b + 6, 0) in let d := (b + 7, 0) in
  valid_length 64 /\ fft_history b (Some 64) m /\ (forall p, In p [s; x; y; d] -> ~ fft_own b (fst p)) /\
  disjR x 64 s (T * 55 + 9) /\ disjR x 64 y 64 /\ disjR x 64 d (T * 55) /\ disjR d (T * 55) s (T * 55 + 9) /\ disjR d (T * 55) y 64 /\
  holds m s (T * 55 + 9) X /\ holds m y 64 V.
Proof.
  intros Op b T V X. assert (Hx : ~ fft_own b (b + 5)) by (unfold fft_own; lia).
  destruct (complex_hypotheses_met Op b 64 (b + 5, 0) X Hx) as (m1 & H1 & _).
  exists (fun l : loc => if fst l <=? b + 3 then m1 l else if fst l =? b + 4 then Val (X (snd l)) else Val (V (snd l))).
  cbv zeta. split; [apply (proj1 valid_lengths 6); lia|]. split; [|split].
  - eapply h_other; [exact H1|]. intros l Hl. unfold fft_own in Hl. rewrite (proj2 (Nat.leb_le _ _)) by lia. reflexivity.
  - intros p Hp. cbn [In] in Hp. unfold fft_own. repeat (destruct Hp as [<-|Hp]; [cbn [fst]; lia|]). destruct Hp.
  - repeat (split; [intros i j _ _ E; unfold padd in E; cbn [fst snd] in E; injection E; lia|]). split.
    + intros i Hi. unfold padd. cbn [fst snd]. rewrite (proj2 (Nat.leb_gt _ _)), Nat.eqb_refl by lia. reflexivity.
    + intros i Hi. unfold padd. cbn [fst snd]. rewrite (proj2 (Nat.leb_gt _ _)), (proj2 (Nat.eqb_neq _ _)) by lia. reflexivity.
Qed.

(** the hypotheses on the data are met: integers of at most 10 bits as doubles *)
Example C71_integer_data : forall a : nat -> Z, (forall i, (Z.abs (a i) <= 1023)%Z) -> exists X : nat -> dcomplex,
  forall i, bounded 10 (X i) /\ val (X i) = rc (IZR (a i)).
Proof.
  intros a Ha. exists (fun i => (dbl (a i) 0, dbl 0 0)). intros i. specialize (Ha i).
  destruct (dbl_exact (a i) 0 ltac:(lia) ltac:(lia) ltac:(lia)) as [F1 V1]. destruct (dbl_exact 0 0 ltac:(lia) ltac:(lia) ltac:(lia)) as [F2 V2].
  change (bpow radix2 0) with 1%R in V1, V2. rewrite Rmult_1_r in V1, V2.
  split.
  - unfold bounded. cbn [fst snd]. rewrite V1, V2. repeat split; auto; rewrite <- abs_IZR, (pow_IZR 2 10); apply IZR_le; [|vm_compute; discriminate].
    change (2 ^ Z.of_nat 10)%Z with 1024%Z. lia.
  - unfold val, rc. cbn [fst snd]. rewrite V1, V2. reflexivity.
Qed.
