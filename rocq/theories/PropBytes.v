(** * C55: the number of bytes asked from the allocator *)

From Coq Require Import List Arith Bool Lia ZArith.
From Verif Require Import Lanes ModelPow ModelSix ModelApi ModelBluestein ApiFacts BluesteinRun ModelArray ArrayFacts PropArray ModelLength PropLength PropSizes.
Import ListNotations.

(** [al c B]: every block c obtains has at most B elements *)
Definition al (c : cmd) (B : nat) : Prop :=
  forall s b n, In (Alloc b n) (hist (snd (c s))) -> In (Alloc b n) (hist s) \/ n <= B.
Lemma al_seq c d B : al c B -> al d B -> al (c ;> d) B.
Proof.
  intros H1 H2 s b n H. unfold andthen in H. specialize (H1 s b n). destruct (c s) as [[] s1]; cbn [snd] in *; auto.
  destruct (H2 s1 b n H); auto.
Qed.
Lemma al_on c h B : al c B -> al h B -> al (onthrow c h) B.
Proof.
  intros H1 H2 s b n H. unfold onthrow in H. specialize (H1 s b n). destruct (c s) as [[] s1]; cbn [snd] in *; auto.
  specialize (H2 s1 b n). destruct (h s1) as [r s2]. cbn [snd] in *. destruct (H2 H); auto.
Qed.
Lemma al_ok B : al ok B. Proof. intros s b n H. auto. Qed.
Lemma al_do f B : (forall s, hist (f s) = hist s) -> al (do_ f) B.
Proof. intros Hf s b n H. unfold do_ in H. cbn [snd] in H. rewrite Hf in H. auto. Qed.
Lemma al_bad B : al (do_ (event Bad)) B.
Proof. intros s b n [H|H]; [discriminate|auto]. Qed.
Lemma al_take i B : al (take i) B. Proof. intros s b n H. auto. Qed.
Lemma al_null i B : al (null i) B. Proof. intros s b n H. auto. Qed.
Lemma al_use i B : al (use i) B.
Proof. intros s b n H. unfold use in H. destruct (ali s i); destruct H as [H|H]; try discriminate; auto. Qed.
Lemma al_free i B : al (free_of i) B.
Proof. intros s b n H. unfold free_of in H. destruct (ptr s i); [destruct H as [H|H]; [discriminate|auto]|auto]. Qed.
Lemma al_check i B : al (check i) B.
Proof. intros s b n H. unfold check in H. destruct (ptr s i); auto. Qed.
Lemma al_malloc fail i m B : m <= B -> al (malloc_to fail i m) B.
Proof. intros Hm s b n H. unfold malloc_to in H. destruct (fail (nreq s)); cbn in H; auto. destruct H as [H|H]; auto. injection H as _ ->. auto. Qed.
Lemma al_dtor i B : al (arr_dtor i) B.
Proof. unfold arr_dtor. apply al_seq; [apply al_free|]. apply al_do. reflexivity. Qed.
Ltac al_go := repeat match goal with
  | |- al (_ ;> _) _ => apply al_seq
  | |- al (onthrow _ _) _ => apply al_on
  | |- al ok _ => apply al_ok
  | |- al (take _) _ => apply al_take
  | |- al (use _) _ => apply al_use
  | |- al (null _) _ => apply al_null
  | |- al (free_of _) _ => apply al_free
  | |- al (check _) _ => apply al_check
  | |- al (arr_dtor _) _ => apply al_dtor
  | |- al (arr_destroy _) _ => apply al_dtor
  | |- al (do_ (event Bad)) _ => apply al_bad
  | |- al (do_ _) _ => apply al_do; reflexivity
  | |- al (arr_ctor0 _) _ => apply al_do; reflexivity
  | |- al (malloc_to _ _ _) _ => apply al_malloc; assumption
  end.
Lemma al_reset B : al obj_reset_arr B.
Proof.
  intros s b n H. unfold obj_reset_arr in H. destruct (ptr s Obj); auto.
  assert (K : al (arr_dtor EIv ;> arr_dtor EWs ;> arr_dtor EWm ;> arr_dtor EW ;> null EIv ;> null EWs ;> null EWm ;> null EW ;>
               free_of Obj ;> do_ (set_ptr Obj None)) B).
  { al_go. }
  exact (K s b n H).
Qed.
Lemma al_mono c B B' : al c B -> B <= B' -> al c B'.
Proof. intros H HB s b n Hi. destruct (H s b n Hi); auto. right. lia. Qed.

Section A.
Variable fail : nat -> bool.
Lemma al_setup i m B : m <= B -> al (arr_setup fail i m) B.
Proof. intros H. unfold arr_setup. apply al_seq; [apply al_seq; [apply al_free|apply al_malloc; auto]|apply al_check]. Qed.
Lemma al_table i m B : m <= B -> al (table fail i m) B.
Proof. intros H. unfold table. apply al_seq; [apply al_seq; [apply al_setup; auto|apply al_take]|apply al_use]. Qed.
Lemma al_instance B : 1 <= B -> al (instance fail) B.
Proof.
  intros H. unfold instance. al_go.
Qed.
Lemma al_sub i m B : 2 * m <= B -> al (sub_arr fail i m) B.
Proof. intros H. unfold sub_arr. destruct (m <=? 8); [apply al_null|apply al_table; auto]. Qed.
Lemma al_nxn i m B : 1 <= m -> m * m + m <= B -> al (nxn_arr fail i m) B.
Proof.
  intros H1 H. unfold nxn_arr. cbv zeta.
  assert (K1 : m * (m + 2) / 2 <= B) by (apply Nat.div_le_upper_bound; nia).
  assert (K2 : m / 2 * (m / 2 + 1) / 2 <= B).
  { assert (m / 2 <= m) by (apply Nat.div_le_upper_bound; lia). apply Nat.div_le_upper_bound; nia. }
  al_go; apply al_setup; assumption.
Qed.
(** the tables of the algorithm for length N *)
Lemma al_engine N e : selects N e -> al (engine_arr fail e) (2 * N + 1).
Proof.
  intros He. destruct e as [a n|n|M]; cbn [engine_arr].
  - unfold pow_arr. cbv zeta. assert (N = 2 ^ n) by (inversion He; assumption). subst N. destruct (2 ^ n <=? radix a); [apply al_null|].
    assert (2 ^ n / radix a <= 2 ^ n) by (apply Nat.div_le_upper_bound; [destruct a; discriminate|]; destruct a; cbn [radix]; lia).
    destruct (2 ^ n <? omp_min a); apply al_table; lia.
  - unfold six_arr. cbv zeta. assert (N = 2 ^ n) by (inversion He; assumption). subst N.
    destruct (Nat.leb_spec n 5); [apply al_sub; lia|].
    assert (H8 : 2 ^ n / 8 <= 2 ^ n) by (apply Nat.div_le_upper_bound; lia).
    assert (P : forall m, 2 * m <= n -> al (nxn_arr fail EW (2 ^ m)) (2 * 2 ^ n + 1) /\ al (nxn_arr fail EWm (2 ^ m)) (2 * 2 ^ n + 1) /\ al (sub_arr fail EWs (2 ^ m)) (2 * 2 ^ n + 1)).
    { intros m Hm. assert (2 ^ m * 2 ^ m <= 2 ^ n) by (rewrite <- Nat.pow_add_r; apply Nat.pow_le_mono_r; lia).
      assert (1 <= 2 ^ m) by (apply Nat.neq_0_lt_0, Nat.pow_nonzero; lia).
      split; [|split]; [apply al_nxn; auto; nia|apply al_nxn; auto; nia|apply al_sub; nia]. }
    assert (2 * (n / 2) <= n) by (apply Nat.mul_div_le; lia).
    destruct (Nat.odd n).
    + destruct (P (n / 2 - 1) ltac:(lia)) as (P1 & P2 & P3). apply al_seq; [apply al_seq; [apply al_table; lia|exact P2]|exact P3].
    + destruct (P (n / 2) ltac:(lia)) as (P1 & P2 & P3). apply al_seq; [exact P1|exact P3].
  - assert (N = M) by (inversion He; reflexivity). subst M. unfold mixed_arr. apply al_table. lia.
Qed.

Lemma al_setup_z i sz n B : Z.to_nat n <= B -> al (arr_setup_z fail i sz n) B.
Proof. intros H. destruct (setup_cases fail i sz n) as [-> | ->]; unfold arr_setup; al_go; apply al_malloc; lia. Qed.
Lemma al_ctor_z i sz n B : Z.to_nat n <= B -> al (arr_ctor_z fail i sz n) B.
Proof. intros H. unfold arr_ctor_z, malloc_z. destruct (_ <? _)%Z; al_go; apply al_malloc; lia. Qed.
Lemma al_mixed_z n : al (mixed_z fail n) (2 * Z.to_nat n + 1).
Proof.
  unfold mixed_z, incr. al_go; [destruct (n <? INT_MAX)%Z; [apply al_setup_z; lia|al_go]|destruct (n <? 0)%Z; al_go].
Qed.
Lemma al_fft0_z n : al (fft0_z fail n) (2 * Z.to_nat n + 1).
Proof.
  unfold fft0_z. apply al_seq; [apply al_reset|]. destruct (n <=? 0)%Z.
  - al_go; [apply al_instance; lia|apply al_mixed_z|apply al_reset].
  - destruct (Nat.eq_dec (Z.to_nat n) 1) as [E1|E1]; [rewrite E1, select_1; al_go|].
    destruct (select_ok (Z.to_nat n) E1) as (e & -> & He). pose proof (al_engine _ _ He) as Hm.
    destruct e; al_go; try apply al_reset; try exact Hm; try (apply al_instance; lia). apply al_mixed_z.
Qed.
Lemma al_rfft_z n : al (rfft_z fail n) (2 * Z.to_nat n + 1).
Proof.
  unfold rfft_z, incr. al_go.
  - eapply al_mono; [apply al_fft0_z|]. destruct (Z_le_gt_dec 0 n) as [H|H].
    + rewrite Z.quot_div_nonneg by lia. assert (n / 2 <= n)%Z by (apply Z.div_le_upper_bound; lia). lia.
    + assert (Z.quot n 2 <= 0)%Z; [|lia]. rewrite <- (Z.opp_involutive n), Z.quot_opp_l by discriminate. pose proof (Z.quot_pos (- n) 2). lia.
  - destruct (n <? INT_MAX)%Z; [apply al_setup_z; lia|al_go].
  - destruct (n <? 1)%Z; al_go.
Qed.
Lemma al_dct_z n : al (dct_z fail n) (2 * Z.to_nat n + 1).
Proof.
  unfold dct_z, dct0_z, incr. al_go; try (apply al_setup_z; lia).
  - apply al_rfft_z.
  - destruct (n <? INT_MAX)%Z; [apply al_setup_z; lia|al_go].
  - destruct (negb _); [al_go|]. destruct (n <? 2)%Z; al_go.
Qed.
Lemma al_fft0 n : al (fft0_arr fail n) (2 * n + 1).
Proof.
  unfold fft0_arr. apply al_seq; [apply al_reset|]. destruct (Nat.eq_dec n 1) as [->|E1]; [rewrite select_1; al_go|].
  destruct (select_ok n E1) as (e & -> & He). al_go; [apply al_instance; lia|apply al_engine; auto|apply al_reset].
Qed.
Lemma al_bl_z n : (n <= 2 ^ 29)%Z -> al (bl_z fail n) (8 * Z.to_nat n + 1).
Proof.
  intros Hn. unfold bl_z, bl_arr. destruct (Z.ltb_spec n 1) as [H|H]; [al_go|].
  assert (HN : bl_length (Z.to_nat n)) by (split; [lia|rewrite Z2Nat.id by lia; auto]).
  destruct (Z.to_nat n <? 1); [al_go|]. al_go. destruct (negb _); [al_go|]. destruct (bl_pad _ HN) as (e & -> & _ & _ & HL).
  assert (HL' : 2 ^ e <= 4 * Z.to_nat n) by (destruct HL as [HL|HL]; [lia|subst e; cbn; lia]). set (L := 2 ^ e) in *. clearbody L.
  unfold fft_arr. al_go; try (apply al_setup; lia). eapply al_mono; [apply al_fft0|lia].
Qed.

Lemma al_fft_z n : al (fft_z fail n) (2 * Z.to_nat n + 1).
Proof. unfold fft_z. al_go; [apply al_fft0_z|apply al_setup_z; lia]. Qed.
Lemma al_fft0_dtor B : al fft0_dtor B.
Proof. unfold fft0_dtor. apply al_seq; apply al_reset. Qed.
End A.

(** the length up to which the bound below is stated: Bluestein's transform uses a complex transform of up to 4n points *)
Definition most (k : cls) (n : Z) : Z := match k with CBluestein => 8 * Z.max 0 n + 1 | _ => 2 * Z.max 0 n + 1 end.
Lemma al_c_setup fail k n : in_range_z k n -> al (c_setup_z fail k n) (Z.to_nat (most k n)).
Proof.
  intros Hr. destruct k; cbn [c_setup_z most in_range_z] in *; (eapply al_mono; [first [apply al_fft_z|apply al_rfft_z|apply al_dct_z|apply al_bl_z; exact Hr]|lia]).
Qed.
Lemma al_c_ctor fail k n : in_range_z k n -> al (c_ctor_z fail k n) (Z.to_nat (most k n)).
Proof.
  intros Hr. destruct k; cbn [c_ctor_z].
  - unfold fft_ctor_z. cbn [most]. al_go; [eapply al_mono; [apply al_fft0_z|lia]|apply al_reset|apply al_ctor_z; lia|apply al_fft0_dtor].
  - apply al_on; [apply (al_c_setup fail CReal n Hr)|]. unfold rfft_unwind. al_go. apply al_fft0_dtor.
  - apply al_on; [apply (al_c_setup fail CDct n Hr)|]. unfold dct_unwind, dct0_dtor, rfft_dtor. al_go. apply al_fft0_dtor.
  - apply al_on; [apply (al_c_setup fail CBluestein n Hr)|]. unfold bl_unwind, fft_dtor. al_go. apply al_fft0_dtor.
Qed.
Local Open Scope Z_scope.
Lemma exact_bytes w m sz : 0 < w -> 0 <= m -> 1 <= sz <= 16 -> m * 16 < 2 ^ w -> bytes w m sz = m * sz.
Proof. intros Hw Hm Hs H. unfold bytes. rewrite (Z.mod_small m) by nia. apply Z.mod_small. nia. Qed.

(** a block obtained by the setup (or the construction) of a class with an int length, from any state of the object *)
Definition obtains (fail : nat -> bool) (k : cls) (n : Z) (s : st) (m : nat) : Prop :=
  exists b, (In (Alloc b m) (hist (snd (c_setup_z fail k n s))) \/ In (Alloc b m) (hist (snd (c_ctor_z fail k n s)))) /\ ~ In (Alloc b m) (hist s).
Lemma obtains_most fail k n s m : in_range_z k n -> obtains fail k n s m -> Z.of_nat m <= most k n.
Proof.
  intros Hr (b & [H|H] & Hn); [destruct (al_c_setup fail k n Hr s b m H) as [H'|H']|destruct (al_c_ctor fail k n Hr s b m H) as [H'|H']]; try contradiction;
    destruct k; cbn [most] in *; lia.
Qed.

(** ** Theorems *)

(** C55: with a 64-bit size_t the size passed to the allocator is that of the block's elements (of at most 16 bytes
    each), for every int length: the product never wraps *)
Theorem C55_bytes_exact_64 : forall fail k n s m sz, is_int n -> in_range_z k n -> obtains fail k n s m -> 1 <= sz <= 16 ->
  bytes 64 (Z.of_nat m) sz = Z.of_nat m * sz /\ Z.of_nat m * sz <= PTRDIFF_MAX.
Proof.
  intros fail k n s m sz Hi Hr Hm Hs. pose proof (obtains_most fail k n s m Hr Hm) as H.
  assert (Z.of_nat m <= 2 ^ 36).
  { unfold is_int, INT_MIN, INT_MAX in Hi. change (2 ^ 36) with 68719476736. destruct k; cbn [most] in H; lia. }
  change (2 ^ 36) with 68719476736 in *. split; [apply exact_bytes; auto; [lia|lia|]|].
  - change (2 ^ 64) with 18446744073709551616. lia.
  - change PTRDIFF_MAX with 9223372036854775807. nia.
Qed.
Print Assumptions C55_bytes_exact_64.

(** C55: with a 32-bit size_t that holds for lengths below 2^27 (Bluestein: below 2^25) *)
Theorem C55_bytes_exact_32 : forall fail k n s m sz, is_int n -> n < match k with CBluestein => 2 ^ 25 | _ => 2 ^ 27 end -> obtains fail k n s m -> 1 <= sz <= 16 ->
  bytes 32 (Z.of_nat m) sz = Z.of_nat m * sz.
Proof.
  intros fail k n s m sz Hi Hn Hm Hs.
  assert (Hr : in_range_z k n).
  { unfold is_int, INT_MIN, INT_MAX in *. change (2 ^ 25) with 33554432 in *. change (2 ^ 27) with 134217728 in *. destruct k; cbn [in_range_z]; change (2 ^ 29) with 536870912; unfold INT_MAX; lia. }
  pose proof (obtains_most fail k n s m Hr Hm) as H. apply exact_bytes; auto; [lia|lia|].
  change (2 ^ 25) with 33554432 in *. change (2 ^ 27) with 134217728 in *. change (2 ^ 32) with 4294967296. destruct k; cbn [most] in H; lia.
Qed.
Print Assumptions C55_bytes_exact_32.

(** C55, the limit: for length 2^28 with a 32-bit size_t the allocator is asked for 16 bytes for a table of 2^28+1
    elements of 16 bytes, all of which setup writes (C27_tables_have_the_accessed_size) *)
Lemma select_28 (N : nat) : Z.of_nat N = 2 ^ 28 -> select N = Some (EMixed N).
Proof.
  intros HN. assert (HP : N = (2 ^ 28)%nat) by (apply Nat2Z.inj; rewrite HN, Nat2Z.inj_pow; reflexivity).
  assert (HL : Nat.log2 N = 28%nat) by (rewrite HP; apply Nat.log2_pow2; lia). clear HP.
  unfold select. rewrite log_loop_spec by apply Nat.le_refl. rewrite HL. cbn [Nat.add]. destruct (negb _); reflexivity.
Qed.
Theorem C55_size_wraps_on_32_bit : forall fail s s', c_setup_z fail CFFT (2 ^ 28) s = (true, s') ->
  (exists blk, ptr s' EW = Some blk /\ In (Alloc blk (Z.to_nat (2 ^ 28 + 1))) (hist s')) /\ bytes 32 (2 ^ 28 + 1) 16 = 16.
Proof.
  intros fail s s' E. split; [|reflexivity].
  rewrite c_setup_nat in E by (unfold is_int, INT_MIN, INT_MAX; change (2 ^ 28) with 268435456; lia).
  pose proof (select_28 (Z.to_nat (2 ^ 28)) ltac:(rewrite Z2Nat.id; [reflexivity|discriminate])) as HN.
  rewrite Z2Nat.inj_add by discriminate. revert HN E. generalize (Z.to_nat (2 ^ 28)) as N. change (Z.to_nat 1) with 1%nat. intros N HN E.
  destruct (setup_does fail CFFT N (EMixed N) I ltac:(discriminate) HN s s' E) as [_ HP]. exact (HP EW).
Qed.
Print Assumptions C55_size_wraps_on_32_bit.

(** the hypotheses are met: setup for length 60 obtains a table of 61 elements; in an allocator that never fails *)
Example C55_example : obtains (fun _ => false) CFFT 60 fresh 61 /\ is_int 60 /\ in_range_z CFFT 60.
Proof.
  split; [|split; [unfold is_int, INT_MIN, INT_MAX; lia|reflexivity]]. exists 1%nat. split; [left; vm_compute; tauto|]. intros [].
Qed.
(** ... and for length 2^28 setup succeeds if the allocator does *)
Example C55_example_wraps : fst (c_setup_z (fun _ => false) CFFT (2 ^ 28) fresh) = true.
Proof.
  rewrite c_setup_nat by (unfold is_int, INT_MIN, INT_MAX; change (2 ^ 28) with 268435456; lia).
  pose proof (select_28 (Z.to_nat (2 ^ 28)) ltac:(rewrite Z2Nat.id; [reflexivity|discriminate])) as HN. revert HN. generalize (Z.to_nat (2 ^ 28)). intros N HN.
  cbn [c_setup]. unfold fft_arr, fft0_arr. rewrite HN. reflexivity.
Qed.
