(** * Prime factors above 46341: the generic pass overflows int *)

From Coq Require Import List Arith ZArith Bool Lia.
From Verif Require Import Scalar Mem MemFacts Omp Lanes Stage Object Undefined Engine ModelMixed FactorFacts MixedDrive MixedRun ModelMixedClass
  ModelApi ApiFacts ComplexThms.
Import ListNotations.

Section Fail.
Context {Op : Ops}.
Notation prog := (prog C).

Lemma any_acc_dies i k xa wa J j : j < J -> mul_ok i j = false -> dies (any_acc i k xa wa J).
Proof.
  induction J as [|J IH]; intros Hj Hm; [lia|]. cbn [any_acc]. destruct (Nat.eq_dec j J) as [->|].
  - apply dies_bind_r. intros z. cbn. intros v. unfold imul. rewrite Hm. exact I.
  - apply dies_bind_l. apply IH; [lia|auto].
Qed.
Lemma end_body_dies (inv : bool) k s x y W q i : i < k -> mul_ok i i = false ->
  dies ((if inv then invany_end_body else fwdany_end_body) k s x y W q).
Proof.
  intros Hi Hm. destruct inv; unfold invany_end_body, fwdany_end_body; cbv zeta; apply (dies_for k i); auto;
    apply dies_bind_l; apply (any_acc_dies i k _ _ k i); auto.
Qed.
Lemma core_body_dies (inv : bool) k m s x y W p q i : i < k -> mul_ok i i = false ->
  dies ((if inv then invany_core_body else fwdany_core_body) k m s x y W p q).
Proof.
  intros Hi Hm. destruct inv; unfold invany_core_body, fwdany_core_body; cbv zeta; apply (dies_for k i); auto;
    apply dies_bind_l; apply (any_acc_dies i k _ _ k i); auto.
Qed.

Section Drive.
Variables (A : Type) (seq : A -> A -> A) (nop bad : A).
Variables (ek : nat -> nat -> bool -> ptr -> ptr -> ptr -> A) (ck : nat -> nat -> nat -> ptr -> ptr -> ptr -> A).
Variables (aek : nat -> nat -> ptr -> ptr -> ptr -> A) (ack : nat -> nat -> nat -> ptr -> ptr -> ptr -> A).
Variable cpy : nat -> ptr -> ptr -> A.
Variable D : A -> Prop.
Variable i0 : nat.
Hypothesis D_l : forall a b, D a -> D (seq a b).
Hypothesis D_r : forall a b, D b -> D (seq a b).
Hypothesis D_bad : D bad.
Hypothesis D_aek : forall k s x y W, i0 < k -> 0 < s -> D (aek k s x y W).
Hypothesis D_ack : forall k m s x y W, i0 < k -> 0 < m -> 0 < s -> D (ack k m s x y W).

Lemma div_pos_of r n : 0 < r -> 0 < n -> n mod r = 0 -> 0 < n / r.
Proof. intros Hr Hn E. apply mod_divide in E; auto. destruct E as (c & ->). rewrite Nat.div_mul by lia. destruct c; lia. Qed.
Lemma prime_div_step p r n : prime p -> r < p -> 0 < r -> Nat.divide p n -> n mod r = 0 -> Nat.divide p (n / r).
Proof.
  intros Hp Hr H0 Hd E. apply mod_divide in E; auto. destruct E as (c & ->). rewrite Nat.div_mul by lia.
  destruct (prime_mult_nat p c r Hp Hd) as [H|H]; auto. apply Nat.divide_pos_le in H; lia.
Qed.

Lemma drive_any_dies p fuel : prime p -> i0 < p -> forall r n s eo x y W,
  Nat.divide p n -> 0 < s -> 2 <= n -> Nat.Odd n -> Nat.Odd r -> 2 <= r -> none_below r n -> mul_ok r r = true -> (Z.of_nat n <= 2 ^ 30)%Z ->
  D (drive_any A seq nop bad aek ack cpy fuel r n s eo x y W).
Proof.
  intros Hp Hi0. induction fuel as [|fuel IH]; intros r n s eo x y W Hd Hs Hn Hon Hor Hr Hnb Hm Hz; cbn [drive_any]; auto. cbv zeta.
  destruct (find_factor_spec n r n) as (k & Ek & Hk); auto; try lia. rewrite Ek.
  pose proof (smallest_prime _ _ Hk) as Hpk. pose proof Hk as (Hk2 & Hkd & Hkm).
  assert (Hkp : k <= p) by (apply Hkm; auto; destruct Hp; lia).
  destruct (Nat.eqb_spec k n) as [Ekn|Hne].
  - apply D_l. apply D_aek; auto. subst k. destruct Hpk as [_ Hpk]. destruct (Hpk p Hd) as [->|<-]; auto. destruct Hp; lia.
  - assert (Em : n mod k = 0) by (apply mod_divide; auto; lia).
    assert (Hm0 : 0 < n / k) by (apply div_pos_of; lia).
    assert (Enk : n = n / k * k) by (destruct Hkd as (c & ->); rewrite Nat.div_mul by lia; reflexivity).
    destruct (Nat.eq_dec k p) as [->|Hkp'].
    + apply D_l. apply D_ack; auto.
    + apply D_r. apply IH.
      * apply prime_div_step; auto; lia.
      * nia.
      * assert (n / k <> 1) by (intros E; rewrite E in Enk; lia). lia.
      * eapply odd_divide; [exact Hon|]. exists k. lia.
      * exact (odd_divide k n Hon Hkd).
      * lia.
      * eapply smallest_none_below; [exact Hk|]. exists k. lia.
      * unfold mul_ok, INT_MAX. apply Z.leb_le. change (2 ^ 30)%Z with 1073741824%Z in Hz.
        assert (k <= n / k).
        { apply Hkm; [assert (n / k <> 1) by (intros E; rewrite E in Enk; lia); lia|]. exists k. lia. }
        nia.
      * assert (n / k <= n) by nia. lia.
Qed.
Lemma drive_dies p fuel : prime p -> i0 < p -> 8 < p -> forall n s eo x y W,
  Nat.divide p n -> 0 < s -> 0 < n -> (Z.of_nat n <= 2 ^ 30)%Z -> D (drive A seq nop bad ek ck aek ack cpy fuel n s eo x y W).
Proof.
  intros Hp Hi0 H8. induction fuel as [|fuel IH]; intros n s eo x y W Hd Hs Hn Hz; cbn [drive]; auto. cbv zeta.
  assert (Hpn : p <= n) by (apply Nat.divide_pos_le; auto).
  destruct (Nat.ltb_spec (n * s) 2); [nia|].
  assert (Step : forall r, 1 < r -> r < p -> n mod r = 0 -> Nat.eqb n r = false /\ Nat.divide p (n / r) /\ 0 < n / r /\ (Z.of_nat (n / r) <= 2 ^ 30)%Z).
  { intros r Hr Hrp E. split; [apply Nat.eqb_neq; lia|]. split; [apply prime_div_step; auto; lia|].
    split; [apply div_pos_of; auto; lia|]. pose proof (Nat.div_le_upper_bound n r n). assert (n / r <= n) by (apply Nat.div_le_upper_bound; nia). lia. }
  repeat match goal with
  | |- D (if n mod ?r =? 0 then _ else _) => destruct (Nat.eqb_spec (n mod r) 0);
      [destruct (Step r ltac:(lia) ltac:(lia) ltac:(assumption)) as (E1 & E2 & E3 & E4); rewrite E1; apply D_r; apply IH; auto; lia|]
  end.
  apply (drive_any_dies p); auto.
  - lia.
  - destruct (Nat.Even_or_Odd n) as [(c & ->)|]; auto. exfalso. apply n2. rewrite Nat.mul_comm. apply Nat.mod_mul. lia.
  - exists 3. lia.
  - lia.
  - intros e He Hlt Hde.
    assert (Hc : e = 2 \/ e = 3 \/ e = 4 \/ e = 5 \/ e = 6) by lia.
    destruct Hc as [-> | [-> | [-> | [-> | ->]]]].
    + apply n2. apply mod_divide; auto; lia.
    + apply n4. apply mod_divide; auto; lia.
    + apply n1. apply mod_divide; auto; lia.
    + apply n3. apply mod_divide; auto; lia.
    + apply n2. apply mod_divide; [lia|]. eapply Nat.divide_trans; [|exact Hde]. exists 3. lia.
Qed.
End Drive.

Lemma nat_of z : (0 <= z)%Z -> exists n, Z.of_nat n = z.
Proof. intros H. exists (Z.to_nat z). apply Z2Nat.id. exact H. Qed.
Lemma mul_ok_false p : mul_ok p p = false -> (2147483647 < Z.of_nat p * Z.of_nat p)%Z.
Proof. unfold mul_ok. rewrite Z.leb_gt. exact (fun H => H). Qed.
Lemma not_46341 p : prime p -> (Z.of_nat p <> 46341)%Z.
Proof.
  intros [_ Hp] E. destruct (nat_of 15447) as (c & Hc); [lia|].
  destruct (Hp 3) as [E2|E2]; [exists c; lia|lia|lia].
Qed.
Lemma big_prime p : prime p -> mul_ok p p = false -> (46341 < Z.of_nat p)%Z.
Proof. intros Hp Hm. apply mul_ok_false in Hm. pose proof (not_46341 p Hp). nia. Qed.
Lemma big_index : exists i, mul_ok i i = false /\ forall p, prime p -> mul_ok p p = false -> i < p.
Proof.
  destruct (nat_of 46341) as (i & Hi); [lia|]. exists i. split.
  - unfold mul_ok. rewrite Hi. reflexivity.
  - intros p Hp Hm. pose proof (big_prime p Hp Hm). lia.
Qed.

Lemma fftS_dies inv p fuel n s eo x y W : prime p -> mul_ok p p = false -> Nat.divide p n -> 0 < s -> 0 < n -> (Z.of_nat n <= 2 ^ 30)%Z ->
  dies (fftS inv fuel n s eo x y W).
Proof.
  intros Hp Hm Hd Hs Hn Hz. destruct big_index as (i0 & Hi & Hlt). pose proof (Hlt p Hp Hm) as Hb. rewrite fftS_drive.
  destruct (Nat.le_gt_cases p 8) as [H8|H8].
  { exfalso. apply mul_ok_false in Hm. nia. }
  apply (drive_dies _ _ _ _ _ _ _ _ _ dies i0) with (p := p); auto.
  - intros a b H. apply dies_bind_l. auto.
  - intros a b H. apply dies_bind_r. auto.
  - exact I.
  - intros k s' x' y' W' Hk Hs'. unfold aekS. apply (dies_for s' 0); auto. apply (end_body_dies _ _ _ _ _ _ _ i0); auto.
  - intros k m s' x' y' W' Hk Hm' Hs'. unfold ackS. apply (dies_for m 0); auto. apply (dies_for s' 0); auto.
    apply (core_body_dies _ _ _ _ _ _ _ _ _ i0); auto.
Qed.
Lemma fftP_dies inv p fuel n s eo x y W : prime p -> mul_ok p p = false -> Nat.divide p n -> 0 < s -> 0 < n -> (Z.of_nat n <= 2 ^ 30)%Z ->
  Exists phase_dies (fftP inv fuel n s eo x y W).
Proof.
  intros Hp Hm Hd Hs Hn Hz. destruct big_index as (i0 & Hi & Hlt). pose proof (Hlt p Hp Hm) as Hb. rewrite fftP_drive.
  destruct (Nat.le_gt_cases p 8) as [H8|H8].
  { exfalso. apply mul_ok_false in Hm. nia. }
  apply (drive_dies _ _ _ _ _ _ _ _ _ (Exists phase_dies) i0) with (p := p); auto.
  - intros a b H. apply Exists_app. auto.
  - intros a b H. apply Exists_app. auto.
  - constructor. exists 0. cbn. auto.
  - intros k s' x' y' W' Hk Hs'. unfold aekP. constructor. exists 0. split; [exact Hs'|]. cbn [snd]. apply (end_body_dies _ _ _ _ _ _ _ i0); auto.
  - intros k m s' x' y' W' Hk Hm' Hs'. unfold ackP. constructor. exists 0. split; [cbn; nia|]. cbn [snd].
    apply (core_body_dies _ _ _ _ _ _ _ _ _ i0); auto.
Qed.
Lemma mixed_run_dies p b N k x y : prime p -> mul_ok p p = false -> Nat.divide p N -> 0 < N -> (Z.of_nat N <= 2 ^ 30)%Z ->
  Exists act_dies (mixed_run b N k x y).
Proof.
  intros Hp Hm Hd HN Hz. unfold mixed_run, mixed_serial, mixed_parallel. cbv zeta. destruct (N <? mixed_omp).
  - constructor. apply single_dies. apply dies_bind_l. apply (fftS_dies (meth_inv k) p (S N) N 1 false x y (b, 0)) in Hp; auto. destruct (meth_inv k); exact Hp.
  - constructor. cbn [act_dies]. apply (fftP_dies (meth_inv k) p (S N) N 1 false x y (b, 0)) in Hp; auto. destruct (meth_inv k); exact Hp.
Qed.
Lemma fft0_run_dies p b N k x y : prime p -> mul_ok p p = false -> Nat.divide p N -> 0 < N -> (Z.of_nat N <= 2 ^ 30)%Z ->
  Exists act_dies (fft0_run b N k x y).
Proof.
  intros Hp Hm Hd HN Hz.
  assert (H2 : forall n, N <> 2 ^ n).
  { intros n ->. pose proof (factors_fit_pow2 n p Hp Hd). congruence. }
  assert (H1 : N <> 1) by (intros ->; apply (H2 0); reflexivity).
  destruct (select_ok N H1) as (e & E & He). unfold fft0_run. rewrite E.
  destruct He; try (exfalso; eapply H2; eassumption); try (exfalso; eapply H2; reflexivity).
  cbn [engine_run]. apply (mixed_run_dies p); auto.
Qed.
End Fail.
