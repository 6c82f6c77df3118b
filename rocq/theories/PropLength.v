(** * C54: every int as a length: negative lengths and the largest int *)

From Coq Require Import List Arith Bool Lia ZArith.
From Verif Require Import Lanes ModelPow ModelSix ModelApi ModelBluestein ApiFacts BluesteinRun ModelArray ArrayFacts PropArray ModelLength.
Import ListNotations.
Local Open Scope Z_scope.

(** ** specification *)
(** lengths for which setup computes no int sum or product that overflows *)
Definition in_range_z (k : cls) (n : Z) : Prop :=
  match k with CFFT | CReal => n < INT_MAX | CDct => 2 * n <= INT_MAX | CBluestein => n <= 2 ^ 29 end.
(** lengths for which the methods of a configured object may be called *)
Definition callable_z (k : cls) (n : Z) : Prop :=
  match k with CFFT => n <> 1 | CReal | CDct => n <> 2 /\ n <> 3 | CBluestein => True end.
(** setup of a Bluestein object with a length below 1 changes nothing *)
Definition configured_z (k : cls) (old : option Z) (n : Z) : option Z :=
  match k with CBluestein => if n <? 1 then old else Some n | _ => Some n end.
(** the life of an object, as in PropArray.v, with any int as the argument of the constructor and of each setup *)
Inductive life_z (k : cls) (fail : nat -> bool) : option Z -> st -> Prop :=
| z_default : life_z k fail None fresh
| z_ctor n s : is_int n -> in_range_z k n -> c_ctor_z fail k n fresh = (true, s) -> life_z k fail (configured_z k None n) s
| z_setup o s n s' : life_z k fail o s -> is_int n -> in_range_z k n -> c_setup_z fail k n s = (true, s') -> life_z k fail (configured_z k o n) s'
| z_throw o s n s' : life_z k fail o s -> is_int n -> in_range_z k n -> c_setup_z fail k n s = (false, s') -> life_z k fail None s'
| z_call n s s' : life_z k fail (Some n) s -> callable_z k n -> c_call k s = (true, s') -> life_z k fail (Some n) s'.

(** ** proofs *)
Definition bound (n : Z) : Prop := - 2147483648 <= n <= 2147483648.
Lemma bytes_nat n sz : bound n -> 0 <= n -> 1 <= sz <= 16 -> PTRDIFF_MAX <? bytes 64 n sz = false.
Proof.
  intros [H1 H2] H0 Hs. apply Z.ltb_ge. unfold bytes, PTRDIFF_MAX. change (2 ^ 64) with 18446744073709551616. change (2 ^ 63 - 1) with 9223372036854775807.
  rewrite (Z.mod_small n) by lia. rewrite Z.mod_small by nia. nia.
Qed.
Lemma bytes_neg n sz : bound n -> n < 0 -> 1 <= sz <= 16 -> PTRDIFF_MAX <? bytes 64 n sz = true.
Proof.
  intros [H1 H2] H0 Hs. apply Z.ltb_lt. unfold bytes, PTRDIFF_MAX. rewrite Z.mul_mod_idemp_l by (compute; discriminate).
  change (2 ^ 64) with 18446744073709551616. change (2 ^ 63 - 1) with 9223372036854775807.
  rewrite <- (Z.mod_add (n * sz) 1) by discriminate. rewrite Z.mod_small; nia.
Qed.
Lemma setup_nat fail i sz n : bound n -> 0 <= n -> 1 <= sz <= 16 -> arr_setup_z fail i sz n = arr_setup fail i (Z.to_nat n).
Proof. intros H1 H2 H3. unfold arr_setup_z, malloc_z. rewrite bytes_nat by auto. reflexivity. Qed.
Lemma setup_neg fail i sz n : bound n -> n < 0 -> 1 <= sz <= 16 -> arr_setup_z fail i sz n = arr_setup (fun _ => true) i 0.
Proof. intros H1 H2 H3. unfold arr_setup_z, malloc_z. rewrite bytes_neg by auto. reflexivity. Qed.
Lemma ctor_nat fail i sz n : bound n -> 0 <= n -> 1 <= sz <= 16 -> arr_ctor_z fail i sz n = arr_ctor fail i (Z.to_nat n).
Proof. intros H1 H2 H3. unfold arr_ctor_z, malloc_z. rewrite bytes_nat by auto. reflexivity. Qed.
Lemma ctor_neg fail i sz n : bound n -> n < 0 -> 1 <= sz <= 16 -> arr_ctor_z fail i sz n = arr_ctor (fun _ => true) i 0.
Proof. intros H1 H2 H3. unfold arr_ctor_z, malloc_z. rewrite bytes_neg by auto. reflexivity. Qed.
Lemma int_bound n : is_int n -> bound n.
Proof. unfold is_int, bound, INT_MIN, INT_MAX. lia. Qed.
Lemma int_bound1 n : is_int n -> bound (n + 1).
Proof. unfold is_int, bound, INT_MIN, INT_MAX. lia. Qed.
Ltac bb := first [assumption | apply int_bound; assumption | apply int_bound1; assumption | lia].

(** on natural numbers the model is that of ModelArray.v *)
Lemma incr_lt n c : n < INT_MAX -> incr n c = c (n + 1).
Proof. intros H. unfold incr. rewrite (proj2 (Z.ltb_lt _ _) H). reflexivity. Qed.
Lemma mixed_nat fail n : is_int n -> 0 <= n < INT_MAX -> mixed_z fail n = mixed_arr fail (Z.to_nat n).
Proof.
  intros Hi [H0 H1]. unfold mixed_z, mixed_arr, table. rewrite incr_lt by auto. rewrite (proj2 (Z.ltb_ge n 0)) by lia.
  rewrite setup_nat by bb. replace (Z.to_nat (n + 1)) with (Z.to_nat n + 1)%nat by lia. reflexivity.
Qed.
Lemma fft0_nat fail n : is_int n -> 0 <= n < INT_MAX -> fft0_z fail n = fft0_arr fail (Z.to_nat n).
Proof.
  intros Hi Hn. unfold fft0_z, fft0_arr. destruct (Z.leb_spec n 0) as [H|H].
  - assert (n = 0) by lia. subst n. change (Z.to_nat 0) with 0%nat. change (select 0) with (Some (EMixed 0)). cbn [engine_arr]. rewrite mixed_nat by (unfold is_int, INT_MIN, INT_MAX; lia). reflexivity.
  - destruct (select (Z.to_nat n)) as [e|] eqn:E; [|reflexivity]. destruct e as [a m|m|N]; [reflexivity|reflexivity|].
    assert (N = Z.to_nat n).
    { revert E. unfold select, FFT1, FFT2, FFT3, FFT4, FFT5, FFT6, FFT7, FFT8. cbv zeta. destruct (negb _); [intros [= <-]; reflexivity|].
      generalize (log_loop (Z.to_nat n) (Z.to_nat n) 0). intros m.
      do 25 (destruct m as [|m]; [discriminate|]). intros [= <-]. reflexivity. }
    subst N. cbn [engine_arr]. rewrite mixed_nat by auto. reflexivity.
Qed.
Lemma ltb_nat n m : 0 <= n -> 0 <= m -> (n <? m) = (Z.to_nat n <? Z.to_nat m)%nat.
Proof. intros H H'. destruct (Z.ltb_spec n m), (Nat.ltb_spec (Z.to_nat n) (Z.to_nat m)); auto; lia. Qed.
Lemma fft_nat fail n : is_int n -> 0 <= n < INT_MAX -> fft_z fail n = fft_arr fail (Z.to_nat n).
Proof. intros Hi Hn. unfold fft_z, fft_arr. rewrite fft0_nat, setup_nat by bb. reflexivity. Qed.
Lemma fft_ctor_nat fail n : is_int n -> 0 <= n < INT_MAX -> fft_ctor_z fail n = fft_ctor fail (Z.to_nat n).
Proof. intros Hi Hn. unfold fft_ctor_z, fft_ctor. rewrite fft0_nat, ctor_nat by bb. reflexivity. Qed.
Lemma rfft_nat fail n : is_int n -> 0 <= n < INT_MAX -> rfft_z fail n = rfft_arr fail (Z.to_nat n).
Proof.
  intros Hi Hn. unfold rfft_z, rfft_arr. rewrite incr_lt by lia. rewrite setup_nat by bb.
  rewrite Z.quot_div_nonneg by lia. assert (0 <= n / 2 <= n) by (split; [apply Z.div_pos|apply Z.div_le_upper_bound]; lia).
  rewrite fft0_nat by (unfold is_int, INT_MIN, INT_MAX in *; lia). rewrite Z2Nat.inj_div by lia. change (Z.to_nat 2) with 2%nat.
  replace (Z.to_nat (n + 1)) with (Z.to_nat n + 1)%nat by lia. rewrite (ltb_nat n 1) by lia. reflexivity.
Qed.
Lemma dbl_nat n : 0 <= n -> dbl_ok n = mul_ok 2 (Z.to_nat n).
Proof.
  intros H. unfold dbl_ok, mul_ok, INT_MIN. rewrite (proj2 (Z.leb_le _ _)) by lia. rewrite Z2Nat.id by lia. reflexivity.
Qed.
Lemma dct_nat fail n : is_int n -> 0 <= n < INT_MAX -> dct_z fail n = dct_arr fail (Z.to_nat n).
Proof.
  intros Hi Hn. unfold dct_z, dct_arr, dct0_z, dct0_arr. rewrite incr_lt by lia. rewrite !setup_nat, rfft_nat by bb.
  replace (Z.to_nat (n + 1)) with (Z.to_nat n + 1)%nat by lia. rewrite dbl_nat by lia. rewrite (ltb_nat n 2) by lia. reflexivity.
Qed.
Lemma bl_nat fail n : 0 <= n -> bl_z fail n = bl_arr fail (Z.to_nat n).
Proof.
  intros Hn. unfold bl_z. rewrite (ltb_nat n 1) by lia. change (Z.to_nat 1) with 1%nat. destruct (Nat.ltb_spec (Z.to_nat n) 1) as [H|H]; [|reflexivity].
  unfold bl_arr. rewrite (proj2 (Nat.ltb_lt _ _) H). reflexivity.
Qed.
Lemma c_setup_nat fail k n : is_int n -> 0 <= n < INT_MAX -> c_setup_z fail k n = c_setup fail k (Z.to_nat n).
Proof. intros Hi Hn. destruct k; cbn [c_setup_z c_setup]; [apply fft_nat|apply rfft_nat|apply dct_nat|apply bl_nat]; auto; lia. Qed.
Lemma c_ctor_nat fail k n : is_int n -> 0 <= n < INT_MAX -> c_ctor_z fail k n = c_ctor fail k (Z.to_nat n).
Proof. intros Hi Hn. destruct k; cbn [c_ctor_z c_ctor]; [apply fft_ctor_nat|rewrite rfft_nat|rewrite dct_nat|rewrite bl_nat]; auto; lia. Qed.

(** negative lengths *)
Lemma fails i n s : exists s', arr_setup (fun _ => true) i n s = (false, s').
Proof. unfold arr_setup, andthen, free_of, malloc_to, check. destruct (ptr s i); cbn [set_ptr event ptr]; rewrite upd_eq; eauto. Qed.
Lemma ctor_fails i n s : exists s', arr_ctor (fun _ => true) i n s = (false, s').
Proof. unfold arr_ctor, andthen, malloc_to, check. cbn [set_ptr event ptr]. rewrite upd_eq. eauto. Qed.
Definition throws (c : cmd) : Prop := forall s, exists s', c s = (false, s').
Lemma throws_l c d : throws c -> throws (c ;> d).
Proof. intros H s. unfold andthen. destruct (H s) as (s' & ->). eauto. Qed.
Lemma throws_r c d : throws d -> throws (c ;> d).
Proof. intros H s. unfold andthen. destruct (c s) as [[] s']; [apply H|eauto]. Qed.
Lemma throws_on c h : throws c -> throws (onthrow c h).
Proof. intros H s. unfold onthrow. destruct (H s) as (s' & ->). destruct (h s') as [? s2]. eauto. Qed.
Lemma fft_throws fail n : is_int n -> n < 0 -> throws (fft_z fail n).
Proof. intros Hi Hn. unfold fft_z. apply throws_l, throws_r. rewrite setup_neg by bb. intros s. apply fails. Qed.
Lemma fft_ctor_throws fail n : is_int n -> n < 0 -> throws (fft_ctor_z fail n).
Proof. intros Hi Hn. unfold fft_ctor_z. apply throws_l, throws_r, throws_on. rewrite ctor_neg by bb. intros s. apply ctor_fails. Qed.
Lemma rfft_throws fail n : is_int n -> n < -1 -> throws (rfft_z fail n).
Proof.
  intros Hi Hn. unfold rfft_z. rewrite incr_lt by (unfold is_int, INT_MAX in *; lia).
  apply throws_l, throws_l, throws_r. rewrite setup_neg by bb. intros s. apply fails.
Qed.
Lemma dct_throws fail n : is_int n -> n < 0 -> throws (dct_z fail n).
Proof. intros Hi Hn. unfold dct_z. do 3 apply throws_l. apply throws_r. rewrite setup_neg by bb. intros s. apply fails. Qed.

(** invariant *)
Section Inv.
Variable fail : nat -> bool.
Lemma t_mixed_neg (A B : nset) l n : (forall j, eng j -> A j) -> (forall j, B j -> ~ eng j) -> is_int n -> n < 0 ->
  tri (Inv true A B l) (mixed_z fail n) (fun s => Inv true A B l s) (Tw true A B l).
Proof.
  intros HA HB Hi Hn. unfold mixed_z. rewrite incr_lt by (unfold is_int, INT_MAX in *; lia). rewrite (proj2 (Z.ltb_lt n 0) Hn).
  assert (E1 : eng EW) by (unfold eng; auto).
  assert (K : forall f, tri (Inv true A B l) (arr_setup f EW 0 ;> take EW ;> ok) (fun s => Inv true A B l s) (Tw true A B l)).
  { intros f. eapply tri_seq; [|apply tri_ok].
    eapply tri_weak; [apply (t_setup_take f true A B l EW 0); [discriminate|auto]|auto| |]; intros s Hs; (eapply Inv_mono; [exact Hs|auto| |]).
    - intros j Hj. left. auto.
    - intros j Hj. left. auto.
    - intros j [Hj Hne]. split; auto. intros ->. auto.
    - intros j [Hj Hne]. auto. }
  destruct (Z.eq_dec n (-1)) as [->|Hne].
  - change (-1 + 1) with 0. rewrite setup_nat by bb. apply K.
  - rewrite setup_neg by bb. apply K.
Qed.
Lemma t_fft0_neg (o : bool) (X Y : nset) l n : plain X -> plain Y -> is_int n -> n < 0 ->
  tri (F o X Y l) (fft0_z fail n) (F true X Y l) (F false X Y l).
Proof.
  intros HX HY Hi Hn. unfold fft0_z. eapply t_seq; [apply t_reset_F; auto|]. rewrite (proj2 (Z.leb_le n 0)) by lia.
  eapply tri_weak with (Q := F true X Y l) (R := fun s => F false X Y l s /\ ptr s Obj = None); [|intros s Hs; exact Hs|auto|intros s [Hs _]; exact Hs].
  eapply tri_onthrow with (R' := fun s => exists o', Inv o' (noeng X) (noeng Y) l s).
  - eapply tri_seq with (Q := F true X Y l); [eapply tri_weak; [apply (t_instance fail X Y l HX HY)|auto|auto|]|].
    + intros s [Hs _]. exists false. eapply Inv_mono; [exact Hs|auto| |]; intros j [Hj _]; auto. left; auto.
    + eapply tri_weak; [apply (t_mixed_neg (witheng X) Y l n)| | |]; auto.
      * intros j Hj. right; auto.
      * intros j Hj. apply HY; auto.
      * intros s Hs. exists true. eapply Inv_mono; [exact Hs|auto| |]; intros j [Hj Hj']; split; auto. left; auto.
  - intros s (o' & Hs). pose proof (t_reset o' X Y l (fun j Hj => proj1 (HX j Hj)) s Hs) as H.
    destruct (obj_reset_arr s) as [[] s']; [|contradiction]. destruct H as [H HO]. split; auto.
    eapply Inv_mono; [exact H|auto|auto|]. intros j Hj. split; auto. apply HY; auto.
Qed.

Lemma setup_cases i sz n : arr_setup_z fail i sz n = arr_setup (fun _ => true) i 0 \/ arr_setup_z fail i sz n = arr_setup fail i (Z.to_nat n).
Proof. unfold arr_setup_z, malloc_z. destruct (_ <? _); [left|right]; reflexivity. Qed.
Lemma z_arr (o : bool) (X Y : nset) l i sz n : i <> Obj -> ~ eng i -> tri (F o X Y l) (arr_setup_z fail i sz n ;> take i) (F o (plus X i) (plus Y i) l) Base.
Proof. intros Hi He. destruct (setup_cases i sz n) as [-> | ->]; apply s_arr; auto. Qed.
Lemma z_fft0 (o : bool) (X Y : nset) l n : plain X -> plain Y -> is_int n -> n < 0 -> tri (F o X Y l) (fft0_z fail n) (F true X Y l) Base.
Proof.
  intros HX HY Hi Hn. eapply tri_weak; [apply (t_fft0_neg o X Y l n); auto|auto|auto|]. intros s Hs. exists l. eapply F_weak; [exact Hs|auto| |]; intros j [].
Qed.
Lemma neg_lt n : n < 0 -> n < INT_MAX. Proof. unfold INT_MAX. lia. Qed.
Lemma z_rfft (o : bool) (X Y : nset) l n : plain X -> plain Y -> is_int n -> n < 0 ->
  tri (F o X Y l) (rfft_z fail n) (F false (plus X Wu) (plus Y Wu) 0) Base.
Proof.
  intros HX HY Hi Hn. unfold rfft_z. rewrite incr_lt by (apply neg_lt; auto). rewrite (proj2 (Z.ltb_lt n 1)) by lia. replace (Z.to_nat n) with 0%nat by lia.
  eapply tri_seq; [|apply tri_ok]. apply tri_assoc. eapply tri_seq; [|apply z_arr; ne]. eapply tri_seq; [apply s_len|].
  destruct (Z.eq_dec n (-1)) as [->|Hne].
  - change (Z.quot (-1) 2) with 0. rewrite fft0_nat by (unfold is_int, INT_MIN, INT_MAX; lia). eapply tri_weak; [apply (s_fft0 fail o X Y 0 (Z.to_nat 0) HX HY)|auto| |auto].
    intros s Hs. eapply F_weak; [exact Hs|discriminate|auto|auto].
  - assert (Hq : Z.quot n 2 = - (- n / 2)) by (rewrite <- (Z.opp_involutive n) at 1; rewrite Z.quot_opp_l by discriminate; rewrite Z.quot_div_nonneg by lia; reflexivity).
    assert (H2 : 0 < - n / 2 <= - n) by (split; [apply Z.div_str_pos; lia|apply Z.div_le_upper_bound; lia]).
    eapply tri_weak; [apply (z_fft0 o X Y 0 (Z.quot n 2) HX HY)| | |]; auto.
    + rewrite Hq. unfold is_int, INT_MIN, INT_MAX in *. lia.
    + rewrite Hq. lia.
    + intros s Hs. eapply F_weak; [exact Hs|discriminate|auto|auto].
Qed.
Lemma tri_throws P Q R c : tri P c Q R -> throws c -> forall Q', tri P c Q' R.
Proof. intros H Ht Q' s Hs. specialize (H s Hs). destruct (Ht s) as (s' & E). rewrite E in *. exact H. Qed.
Lemma tri_never (Q R : st -> Prop) c : tri (fun _ => False) c Q R.
Proof. intros s []. Qed.
Lemma z_dct (o : bool) (X Y : nset) l n : plain X -> plain Y -> is_int n -> n < 0 ->
  tri (F o X Y l) (dct_z fail n) (fun _ => False) Base.
Proof.
  intros HX HY Hi Hn. enough (exists Q, tri (F o X Y l) (dct_z fail n) Q Base) as (Q & HQ) by (eapply tri_throws; [exact HQ|apply dct_throws; auto]).
  unfold dct_z, dct0_z. rewrite incr_lt by (apply neg_lt; auto). destruct (Z.eq_dec n (-1)) as [->|Hne].
  - eexists. change (negb (dbl_ok (-1))) with false. change (-1 <? 2) with true. cbv iota.
    apply tri_assoc. eapply tri_seq; [|apply z_arr; ne]. apply tri_assoc. eapply tri_seq; [|apply z_arr; ne].
    eapply tri_seq; [apply s_len|]. eapply tri_seq; [|apply tri_ok].
    apply tri_assoc. eapply tri_seq; [|apply z_arr; ne]. eapply tri_seq; [apply s_len|]. apply z_rfft; auto.
  - exists (fun _ => False). eapply tri_seq; [|apply tri_never]. eapply tri_seq; [|apply tri_never]. eapply tri_seq; [|apply tri_never]. eapply tri_seq; [|apply tri_never].
    eapply tri_seq; [apply s_len|]. eapply tri_seq; [|apply tri_never]. eapply tri_seq; [|apply tri_never]. eapply tri_seq; [|apply tri_never].
    eapply tri_seq; [apply s_len|]. eapply tri_throws; [apply z_rfft; auto|]. apply rfft_throws; auto. lia.
Qed.
Lemma range_nat k n : 0 <= n -> in_range_z k n -> in_range k (Z.to_nat n) /\ n < INT_MAX.
Proof. intros H0 H. destruct k; cbn [in_range_z in_range] in *; unfold INT_MAX in *; change (2 ^ 29) with 536870912 in *; split; auto; lia. Qed.
Lemma z_class k n : is_int n -> in_range_z k n -> (k = CBluestein -> 1 <= n) -> tri Base (c_setup_z fail k n) (Ready k (Z.to_nat n)) Base.
Proof.
  intros Hi Hr Hb. destruct (Z_le_gt_dec 0 n) as [H0|H0].
  - destruct (range_nat k n H0 Hr) as [Hr' Hl]. rewrite c_setup_nat by auto. apply s_class; auto. intros Hk. specialize (Hb Hk). lia.
  - replace (Z.to_nat n) with 0%nat by lia. intros s (l & Hs). destruct k; cbn [c_setup_z].
    + pose proof (fft_throws fail n Hi ltac:(lia) s) as (s' & E).
      assert (H : tri (F false nil nil l) (fft_z fail n) (F true (plus nil Work) (plus nil Work) l) Base).
      { unfold fft_z. apply tri_assoc. eapply tri_seq; [apply z_fft0; auto; lia|apply z_arr; ne]. }
      specialize (H s Hs). rewrite E in *. exact H.
    + pose proof (z_rfft false nil nil l n plain_nil plain_nil Hi ltac:(lia) s Hs) as H. destruct (rfft_z fail n s) as [[] s']; auto.
      exists 0%nat. split; [|right; reflexivity]. eapply F_weak; [exact H|discriminate|pl|pl].
    + pose proof (z_dct false nil nil l n plain_nil plain_nil Hi ltac:(lia) s Hs) as H. destruct (dct_z fail n s) as [[] s']; [destruct H|auto].
    + specialize (Hb eq_refl). lia.
Qed.

Lemma gp_setup_z Z i sz n : ~ Z i -> Gp Z (arr_setup_z fail i sz n).
Proof. intros Hi. destruct (setup_cases i sz n) as [-> | ->]; apply gp_setup; auto. Qed.
Lemma gp_mixed_z (Z : nset) n : ~ Z EW -> Gp Z (mixed_z fail n).
Proof.
  intros HZ. unfold mixed_z, incr. apply gp_seq; [apply gp_seq|].
  - destruct (n <? INT_MAX); [apply gp_setup_z; auto|apply gp_f, g_do; reflexivity].
  - apply gp_f, g_take.
  - destruct (n <? 0); [apply tri_ok|apply gp_f, g_use].
Qed.
Lemma gp_fft0_z (Z : nset) n : ~ Z Obj -> (forall j, Z j -> ~ eng j) -> Gp Z (fft0_z fail n).
Proof.
  intros HO HZ. assert (HW : ~ Z EW) by (intros H; apply (HZ _ H); unfold eng; auto). unfold fft0_z. apply gp_seq; [apply gp_reset|]. destruct (n <=? 0).
  - apply gp_onthrow; [|apply gp_reset]. apply gp_seq; [apply g_instance; auto|apply gp_mixed_z; auto].
  - destruct (select (Z.to_nat n)) as [e|]; [|apply tri_ok].
    assert (H : Gp Z (onthrow (instance fail ;> engine_arr fail e) obj_reset_arr)).
    { apply gp_onthrow; [|apply gp_reset]. apply gp_seq; [apply g_instance; auto|apply g_engine; auto]. }
    destruct e as [a m|m|N]; [exact H|exact H|]. apply gp_onthrow; [|apply gp_reset]. apply gp_seq; [apply g_instance; auto|apply gp_mixed_z; auto].
Qed.
Ltac no := intros H; unfold others, members, eng in H; intuition congruence.
Ltac gpz := repeat match goal with
  | |- Gp _ (_ ;> _) => apply gp_seq
  | |- Gp _ (fft0_z _ _) => apply gp_fft0_z; [no|let j := fresh in let H := fresh in intros j H; apply H]
  | |- Gp _ (arr_setup_z _ _ _ _) => apply gp_setup_z; no
  | |- Gp _ (take _) => apply gp_f, g_take
  | |- Gp _ (use _) => apply gp_f, g_use
  | |- Gp _ (do_ _) => apply gp_f, g_do; reflexivity
  | |- Gp _ ok => apply tri_ok
  | |- Gp _ (if ?b then _ else _) => destruct b
  end.
Lemma gp_c_setup_z k n : Gp (others k) (c_setup_z fail k n).
Proof.
  destruct k; cbn [c_setup_z]; unfold fft_z, dct_z, dct0_z, rfft_z, bl_z, incr; gpz. apply (gp_c_setup fail CBluestein).
Qed.

(** constructors *)
Lemma z_fft_ctor n : is_int n -> n < 0 -> tri (fun s => s = fresh) (fft_ctor_z fail n) (fun _ => False) Gone.
Proof.
  intros Hi Hn. set (Z := fun j => ~ eng j /\ j <> Obj).
  assert (HZ : forall j, Z j \/ eng j \/ j = Obj) by (intros j; unfold Z, eng; destruct j; intuition discriminate).
  assert (HW : Z Work) by (unfold Z, eng; intuition discriminate).
  unfold fft_ctor_z. eapply tri_seq; [|apply tri_never].
  eapply tri_seq with (Q := fun s => F true nil nil 0 s /\ G Z s).
  - eapply tri_onthrow with (R' := D Z); [|apply t_false, d_reset; auto].
    intros s ->. pose proof (z_fft0 false nil nil 0 n plain_nil plain_nil Hi Hn fresh base_fresh) as H.
    pose proof (gp_fft0_z Z n ltac:(unfold Z; tauto) ltac:(unfold Z; tauto) fresh (G_fresh Z)) as H'.
    destruct (fft0_z fail n fresh) as [[] s']; split; auto.
  - eapply tri_onthrow with (R' := D Z); [|apply t_false, d_fft0; auto].
    intros s [Hs HG]. rewrite ctor_neg by bb. unfold arr_ctor, andthen, malloc_to, check. cbn [set_ptr ptr]. rewrite upd_eq. split.
    + exists 0%nat. eapply F_weak; [apply (Inv_none _ _ _ _ _ Work 1 Hs (HG Work HW))|discriminate| |]; intros j [].
    + intros j Hj. cbn. destruct (name_dec Work j) as [<-|]; [apply upd_eq|rewrite upd_ne; auto].
Qed.
Lemma z_ctor_ok k n : is_int n -> in_range_z k n -> (k = CBluestein -> 1 <= n) ->
  tri (fun s => s = fresh) (c_ctor_z fail k n) (fun s => Ready k (Z.to_nat n) s /\ G (others k) s) Gone.
Proof.
  intros Hi Hr Hb. destruct (Z_le_gt_dec 0 n) as [H0|H0].
  - destruct (range_nat k n H0 Hr) as [Hr' Hl]. rewrite c_ctor_nat by auto. apply s_ctor; auto. intros Hk. specialize (Hb Hk). lia.
  - destruct d_unwind as (U1 & U2 & U3).
    assert (Hf : forall k', D (others k') fresh) by (intros k'; split; [exists 0%nat; exact base_fresh|apply G_fresh]).
    destruct k.
    + eapply tri_weak; [apply (z_fft_ctor n Hi); lia|auto|contradiction|auto].
    + eapply tri_weak with (P := D _) (R := Gone); [|intros s ->; apply Hf|intros s Hs; exact Hs|auto].
      cbn [c_ctor_z]. apply s_onthrow; [apply (z_class CReal n Hi Hr Hb)|apply (gp_c_setup_z CReal)|exact U1].
    + eapply tri_weak with (P := D _) (R := Gone); [|intros s ->; apply Hf|intros s Hs; exact Hs|auto].
      cbn [c_ctor_z]. apply s_onthrow; [apply (z_class CDct n Hi Hr Hb)|apply (gp_c_setup_z CDct)|exact U2].
    + specialize (Hb eq_refl). lia.
Qed.
Lemma callable_nat k n : callable_z k n -> (k = CFFT -> 0 <= n) -> callable k (Z.to_nat n).
Proof. destruct k; cbn [callable_z callable]; auto; intros H H'; [specialize (H' eq_refl)|..]; lia. Qed.

Lemma life_z_ok k o s : life_z k fail o s -> Base s /\ G (others k) s /\ forall n, o = Some n -> Ready k (Z.to_nat n) s /\ (k = CFFT -> 0 <= n).
Proof.
  assert (KB : forall n, (k = CBluestein /\ n < 1) \/ (k = CBluestein -> 1 <= n)).
  { intros n. destruct (Z_lt_ge_dec n 1) as [H|H]; [|right; lia]. destruct k; [right; discriminate..|left; auto]. }
  assert (KF : forall n s s', is_int n -> c_setup_z fail k n s = (true, s') -> k = CFFT -> 0 <= n).
  { intros n s1 s2 Hi E ->. destruct (Z_le_gt_dec 0 n) as [H|H]; auto. destruct (fft_throws fail n Hi ltac:(lia) s1) as (s3 & E'). cbn [c_setup_z] in E. congruence. }
  assert (KC : forall n s s', is_int n -> c_ctor_z fail k n s = (true, s') -> k = CFFT -> 0 <= n).
  { intros n s1 s2 Hi E ->. destruct (Z_le_gt_dec 0 n) as [H|H]; auto. destruct (fft_ctor_throws fail n Hi ltac:(lia) s1) as (s3 & E'). cbn [c_ctor_z] in E. congruence. }
  assert (KO : forall o n, (k = CBluestein -> 1 <= n) -> configured_z k o n = Some n).
  { intros o' n H. destruct k; try reflexivity. cbn [configured_z]. rewrite (proj2 (Z.ltb_ge n 1)) by auto. reflexivity. }
  induction 1 as [|n s Hi Hr E|o s n s' Hl (IB & IG & IR) Hi Hr E|o s n s' Hl (IB & IG & IR) Hi Hr E|n s s' Hl (IB & IG & IR) Hc E].
  - split; [exists 0%nat; exact base_fresh|]. split; [apply G_fresh|discriminate].
  - destruct (KB n) as [[Hk Hn]|Hn].
    + subst k. cbn [c_ctor_z configured_z] in *. unfold onthrow, bl_z in E. rewrite (proj2 (Z.ltb_lt n 1) Hn) in *. injection E as <-.
      split; [exists 0%nat; exact base_fresh|]. split; [apply G_fresh|discriminate].
    + pose proof (z_ctor_ok k n Hi Hr Hn fresh eq_refl) as H. rewrite E in H. destruct H as [H HG].
      split; [eapply ready_base; eauto|]. split; auto. rewrite KO by auto. intros n' [= <-]. split; eauto.
  - pose proof (gp_c_setup_z k n s IG) as HG. rewrite E in HG. destruct (KB n) as [[Hk Hn]|Hn].
    + subst k. cbn [c_setup_z configured_z] in *. unfold bl_z in E. rewrite (proj2 (Z.ltb_lt n 1) Hn) in *. injection E as <-. auto.
    + pose proof (z_class k n Hi Hr Hn s IB) as H. rewrite E in H.
      split; [eapply ready_base; eauto|]. split; auto. rewrite KO by auto. intros n' [= <-]. split; eauto.
  - pose proof (gp_c_setup_z k n s IG) as HG. rewrite E in HG. split; [|split; [exact HG|discriminate]]. destruct (KB n) as [[Hk Hn]|Hn].
    + subst k. cbn [c_setup_z] in *. unfold bl_z in E. rewrite (proj2 (Z.ltb_lt n 1) Hn) in *. discriminate.
    + pose proof (z_class k n Hi Hr Hn s IB) as H. rewrite E in H. exact H.
  - pose proof (gp_c_call k s IG) as HG. rewrite E in HG. destruct (IR n eq_refl) as [HR HF].
    pose proof (s_call k (Z.to_nat n) (callable_nat k n Hc HF) s HR) as H. rewrite E in H.
    split; [eapply ready_base; eauto|]. split; auto. intros n' [= <-]. auto.
Qed.
End Inv.

(** ** Theorems *)

(** C54: for lengths that are natural numbers (below the largest int) this is the model of C27 and C32 *)
Theorem C54_natural_lengths : forall fail k n s, is_int n -> 0 <= n < INT_MAX ->
  c_setup_z fail k n s = c_setup fail k (Z.to_nat n) s /\ c_ctor_z fail k n s = c_ctor fail k (Z.to_nat n) s.
Proof. intros fail k n s Hi Hn. rewrite c_setup_nat, c_ctor_nat by auto. auto. Qed.
Print Assumptions C54_natural_lengths.

(** C54: whatever the state of the object and whatever the allocator does, setup with a negative length and construction
    with one throw std::bad_alloc for complex transforms and cosine transforms, and for real transforms except of length -1 *)
Theorem C54_negative_length_throws : forall fail k n s, is_int n -> n < 0 ->
  match k with CFFT | CDct => True | CReal => n <> -1 | CBluestein => False end ->
  fst (c_setup_z fail k n s) = false /\ fst (c_ctor_z fail k n fresh) = false.
Proof.
  intros fail k n s Hi Hn Hk.
  assert (K : forall c, throws c -> forall s, fst (c s) = false) by (intros c H s'; destruct (H s') as (s2 & ->); reflexivity).
  destruct k; cbn [c_setup_z c_ctor_z].
  - split; apply K; [apply fft_throws|apply fft_ctor_throws]; auto.
  - split; apply K; [|apply throws_on]; apply rfft_throws; auto; lia.
  - split; apply K; [|apply throws_on]; apply dct_throws; auto.
  - destruct Hk.
Qed.
Print Assumptions C54_negative_length_throws.

(** C54: a real transform object takes the length -1; if memory suffices its methods then do nothing, as for length 0 *)
Theorem C54_real_length_minus_one : forall fail o s s', life_z CReal fail o s -> c_setup_z fail CReal (-1) s = (true, s') ->
  c_call CReal s' = (true, s').
Proof.
  intros fail o s s' Hl E.
  assert (H : life_z CReal fail (Some (-1)) s').
  { apply (z_setup CReal fail o s (-1) s' Hl); [unfold is_int, INT_MIN, INT_MAX; lia|cbn; unfold INT_MAX; lia|exact E]. }
  destruct (life_z_ok fail CReal _ s' H) as (_ & _ & HR). destruct (HR (-1) eq_refl) as [(l & Hs & Hl') _].
  cbn [c_call]. unfold rfft_call. rewrite (v_len _ _ _ _ _ Hs). destruct Hl' as [Hl'| ->]; [discriminate|]. reflexivity.
Qed.
Print Assumptions C54_real_length_minus_one.

(** C54: a Bluestein object ignores setup with a length below 1: nothing is allocated or released, a configured object
    stays configured for its old length *)
Theorem C54_bluestein_ignores : forall fail n s, n < 1 -> c_setup_z fail CBluestein n s = (true, s) /\ c_ctor_z fail CBluestein n s = (true, s).
Proof.
  intros fail n s H. cbn [c_setup_z c_ctor_z]. unfold onthrow, bl_z. rewrite (proj2 (Z.ltb_lt n 1) H). auto.
Qed.
Print Assumptions C54_bluestein_ignores.

(** C54: with any ints as lengths, at every point of the life of an object each block was obtained fresh, released at
    most once, accessed only while live, and the live blocks are those the object's arrays hold, each held by one *)
Theorem C54_blocks_owned_exactly_once : forall k fail o s, life_z k fail o s ->
  legal (hist s) /\ (forall b, live b (hist s) <-> exists i, ptr s i = Some b) /\ (forall i j b, ptr s i = Some b -> ptr s j = Some b -> i = j).
Proof. intros k fail o s H. destruct (life_z_ok fail k o s H) as ((l & Hs) & _). destruct Hs. auto. Qed.
Print Assumptions C54_blocks_owned_exactly_once.
(** ... the destructor releases everything *)
Theorem C54_destructor_releases_everything : forall k fail o s, life_z k fail o s ->
  exists s', c_dtor k s = (true, s') /\ legal (hist s') /\ no_leak (hist s').
Proof.
  intros k fail o s H. destruct (life_z_ok fail k o s H) as (HB & HG & _). pose proof (d_c_dtor k s (conj HB HG)) as Hd.
  destruct (c_dtor k s) as [[] s'] eqn:E; [|contradiction]. exists s'. split; auto. apply gone_no_leak. exact Hd.
Qed.
Print Assumptions C54_destructor_releases_everything.
(** ... and a constructor that throws leaks nothing *)
Theorem C54_throwing_constructor_leaks_nothing : forall k fail n s, is_int n -> in_range_z k n -> c_ctor_z fail k n fresh = (false, s) ->
  legal (hist s) /\ no_leak (hist s).
Proof.
  intros k fail n s Hi Hr E. apply gone_no_leak. destruct (Z_lt_ge_dec n 1) as [H|H]; [destruct k|].
  - pose proof (z_ctor_ok fail CFFT n Hi Hr ltac:(discriminate) fresh eq_refl) as K. rewrite E in K. exact K.
  - pose proof (z_ctor_ok fail CReal n Hi Hr ltac:(discriminate) fresh eq_refl) as K. rewrite E in K. exact K.
  - pose proof (z_ctor_ok fail CDct n Hi Hr ltac:(discriminate) fresh eq_refl) as K. rewrite E in K. exact K.
  - destruct (C54_bluestein_ignores fail n fresh H) as [_ E']. congruence.
  - pose proof (z_ctor_ok fail k n Hi Hr ltac:(lia) fresh eq_refl) as K. rewrite E in K. exact K.
Qed.
Print Assumptions C54_throwing_constructor_leaks_nothing.

Lemma keep_bad fail i sz n s s' : (arr_setup_z fail i sz n ;> take i) s = (true, s') -> In Bad (hist s) -> In Bad (hist s').
Proof.
  intros Et Ht. destruct (setup_cases fail i sz n) as [X|X]; rewrite X in Et; clear X; unfold arr_setup, andthen, free_of, malloc_to, check, take in Et.
  - destruct (ptr s i); cbn [set_ptr event ptr] in Et; rewrite upd_eq in Et; discriminate.
  - destruct (ptr s i); cbn [set_ptr event ptr nreq] in Et; destruct (fail (nreq s)); cbn [set_ptr ptr] in Et; rewrite upd_eq in Et; [discriminate Et| |discriminate Et|];
      apply (f_equal snd) in Et; cbn [snd] in Et; subst s'; cbn [set_ali set_ptr hist event In]; auto.
Qed.
Lemma seq_inv c d s s' : (c ;> d) s = (true, s') -> exists s1, c s = (true, s1) /\ d s1 = (true, s').
Proof. unfold andthen. destruct (c s) as [[] s1]; [eauto|discriminate]. Qed.
Lemma onthrow_inv c h s s' : onthrow c h s = (true, s') -> c s = (true, s').
Proof. unfold onthrow. destruct (c s) as [[] s1]; [auto|]. destruct (h s1). discriminate. Qed.
Lemma overflow_bad fail n N s s' : 0 < n -> (n <? INT_MAX) = false -> select (Z.to_nat n) = Some (EMixed N) ->
  fft_z fail n s = (true, s') -> In Bad (hist s').
Proof.
  intros H0 HM S E. unfold fft_z in E. apply seq_inv in E as (s1 & E1 & E2). apply seq_inv in E1 as (s2 & E0 & E1).
  apply (keep_bad fail Work 16 n s2 s'); [unfold andthen; rewrite E1; exact E2|].
  unfold fft0_z in E0. rewrite (proj2 (Z.leb_gt n 0) H0), S in E0. apply seq_inv in E0 as (s3 & _ & E0). apply onthrow_inv in E0.
  apply seq_inv in E0 as (s4 & _ & E0). unfold mixed_z, incr in E0. rewrite HM, (proj2 (Z.ltb_ge n 0)) in E0 by lia.
  unfold do_, event, take, use, andthen, set_ali in E0. cbn in E0. destruct (ptr s4 EW); injection E0 as <-; cbn; auto.
Qed.
Lemma select_max : select (Z.to_nat INT_MAX) = Some (EMixed (Z.to_nat INT_MAX)).
Proof.
  assert (Hz : forall m : nat, Z.to_nat INT_MAX <> (2 ^ m)%nat).
  { intros m Hp. apply (f_equal Z.of_nat) in Hp. rewrite Z2Nat.id in Hp by (unfold INT_MAX; lia). rewrite Nat2Z.inj_pow in Hp. change (Z.of_nat 2) with 2 in Hp.
    destruct m as [|m]; [discriminate Hp|]. rewrite Nat2Z.inj_succ, Z.pow_succ_r in Hp by lia. unfold INT_MAX in Hp. lia. }
  revert Hz. generalize (Z.to_nat INT_MAX). intros N Hz. unfold select. cbv zeta. rewrite (proj2 (Nat.eqb_neq _ _) (Hz _)). reflexivity.
Qed.
(** C54, the limit: a complex transform cannot be set up for the largest int; unless an allocation fails, n+1 overflows *)
Theorem C54_largest_int_overflows : forall fail s s', c_setup_z fail CFFT INT_MAX s = (true, s') -> ~ legal (hist s').
Proof.
  intros fail s s' E.
  assert (KB : forall h, In Bad h -> ~ legal h).
  { induction h as [|e h IH]; [intros []|]. intros [->|H] [H1 H2]; [exact H2|]. exact (IH H H1). }
  apply KB. refine (overflow_bad fail INT_MAX (Z.to_nat INT_MAX) s s' _ _ select_max E); reflexivity.
Qed.
Print Assumptions C54_largest_int_overflows.

(** the hypotheses are met: a complex object set up for 8, then with -3, which throws, then for 4, then called; and a
    real object set up with -1 *)
Example C54_example : exists s t, life_z CFFT (fun _ => false) (Some 4) s /\ legal (hist s) /\ length (hist s) = 9%nat /\
  life_z CReal (fun _ => false) (Some (-1)) t /\ length (hist t) = 4%nat.
Proof.
  pose (fail := fun _ : nat => false).
  pose (s1 := snd (c_ctor_z fail CFFT 8 fresh)). pose (s2 := snd (c_setup_z fail CFFT (-3) s1)). pose (s3 := snd (c_setup_z fail CFFT 4 s2)).
  pose (s4 := snd (c_call CFFT s3)). pose (t := snd (c_setup_z fail CReal (-1) fresh)).
  assert (L4 : life_z CFFT fail (Some 4) s4).
  { apply (z_call CFFT fail 4 s3 s4); [|cbn; lia|apply fst_snd; vm_compute; reflexivity].
    apply (z_setup CFFT fail None s2 4 s3); [|unfold is_int, INT_MIN, INT_MAX; lia|reflexivity|apply fst_snd; vm_compute; reflexivity].
    apply (z_throw CFFT fail (Some 8) s1 (-3) s2); [|unfold is_int, INT_MIN, INT_MAX; lia|reflexivity|apply fst_snd; vm_compute; reflexivity].
    apply (z_ctor CFFT fail 8 s1); [unfold is_int, INT_MIN, INT_MAX; lia|reflexivity|apply fst_snd; vm_compute; reflexivity]. }
  exists s4, t. split; [exact L4|]. split; [apply (C54_blocks_owned_exactly_once _ _ _ _ L4)|]. split; [vm_compute; reflexivity|]. split.
  - apply (z_setup CReal fail None fresh (-1) t); [constructor|unfold is_int, INT_MIN, INT_MAX; lia|reflexivity|apply fst_snd; vm_compute; reflexivity].
  - vm_compute. reflexivity.
Qed.
