(** * The factor search of the mixed-radix FFT *)

From Coq Require Import List Arith ZArith Bool Lia.
From Verif Require Import Scalar Mem Lanes ModelMixed.
Import ListNotations.

(** d is the smallest divisor >= 2 of n *)
Definition smallest_divisor (d n : nat) : Prop :=
  2 <= d /\ Nat.divide d n /\ forall e, 2 <= e -> Nat.divide e n -> d <= e.

Definition prime (p : nat) : Prop := 2 <= p /\ forall e, Nat.divide e p -> e = 1 \/ e = p.

(** every prime factor p of n satisfies p*p <= INT_MAX, i.e. p <= 46340 *)
Definition factors_fit (n : nat) : Prop :=
  forall p, prime p -> Nat.divide p n -> mul_ok p p = true.

Lemma smallest_prime d n : smallest_divisor d n -> prime d.
Proof.
  intros (H1 & H2 & H3). split; auto. intros e He.
  destruct (Nat.eq_dec e 1) as [->|Hne]; auto. right.
  assert (e <> 0) by (intros ->; destruct He as [c Hc]; lia).
  assert (d <= e) by (apply H3; [lia|eapply Nat.divide_trans; eauto]).
  assert (e <= d) by (apply Nat.divide_pos_le; [lia|auto]). lia.
Qed.

Lemma mul_ok_le a b a' b' : a' <= a -> b' <= b -> mul_ok a b = true -> mul_ok a' b' = true.
Proof. unfold mul_ok. rewrite !Z.leb_le. intros. nia. Qed.

Lemma factors_fit_div n d : factors_fit n -> Nat.divide d n -> factors_fit d.
Proof. intros H Hd p Hp Hpd. apply H; auto. eapply Nat.divide_trans; eauto. Qed.

Lemma mod_divide n k : 0 < k -> n mod k = 0 <-> Nat.divide k n.
Proof. intros Hk. apply Nat.mod_divide. lia. Qed.

Definition none_below (k n : nat) : Prop := forall e, 2 <= e -> e < k -> ~ Nat.divide e n.

Lemma none_below_le k n : 2 <= n -> none_below k n -> k <= n.
Proof.
  intros Hn H. destruct (Nat.le_gt_cases k n); auto. exfalso. apply (H n); auto. apply Nat.divide_refl.
Qed.

Lemma find_factor_spec fuel : forall k n,
  2 <= n -> Nat.Odd n -> 2 <= k -> Nat.Odd k -> none_below k n ->
  (Z.of_nat n <= 2 ^ 30)%Z -> mul_ok k k = true -> n - k < fuel ->
  exists d, find_factor fuel k n = Some d /\ smallest_divisor d n.
Proof.
  induction fuel as [|fuel IH]; intros k n Hn Ho Hk Hok Hnb Hz Hm Hf; [lia|].
  cbn [find_factor].
  destruct (Nat.eqb_spec (n mod k) 0) as [E|E].
  { exists k. split; auto. apply mod_divide in E; [|lia]. split; auto. split; auto.
    intros e He Hd. destruct (Nat.le_gt_cases k e); auto. destruct (Hnb e He H Hd). }
  rewrite Hm.
  assert (Hnk : ~ Nat.divide k n) by (intros H; apply E; apply mod_divide; auto; lia).
  destruct (Nat.ltb_spec n (k * k)) as [Hlt|Hge].
  - exists n. split; auto. split; auto. split; [apply Nat.divide_refl|].
    intros e He [c Hc]. destruct (Nat.le_gt_cases k e) as [Hke|Hke].
    + destruct (Nat.eq_dec e n) as [->|Hne]; auto. exfalso.
      assert (c <> 0) by (intros ->; lia).
      assert (Hc2 : 2 <= c). { destruct c as [|[|c]]; lia. }
      assert (c < k) by (assert (e * c < k * k) by lia; nia).
      apply (Hnb c); auto. exists e. lia.
    + exfalso. apply (Hnb e); auto. exists c. lia.
  - assert (Hk2 : ~ Nat.divide (k + 1) n).
    { intros [c Hc]. destruct Hok as [a Ha]. destruct Ho as [b Hb]. rewrite Ha in Hc. 
      assert (2 * (c * (a + 1)) = 2 * b + 1) by nia. lia. }
    assert (Hnb' : none_below (k + 2) n).
    { intros e He Hlt. destruct (Nat.eq_dec e k) as [->|]; auto.
      destruct (Nat.eq_dec e (k + 1)) as [->|]; auto. apply Hnb; lia. }
    apply IH; auto; try lia.
    + destruct Hok as [a Ha]. exists (a + 1). lia.
    + unfold mul_ok, INT_MAX. apply Z.leb_le. change (2 ^ 30)%Z with 1073741824%Z in Hz. nia.
    + pose proof (none_below_le _ _ Hn Hnb'). lia.
Qed.

Lemma smallest_none_below d n m : smallest_divisor d n -> Nat.divide m n -> none_below d m.
Proof.
  intros (H1 & H2 & H3) Hm e He Hlt Hd. assert (d <= e) by (apply H3; auto; eapply Nat.divide_trans; eauto). lia.
Qed.

Lemma odd_divide d n : Nat.Odd n -> Nat.divide d n -> Nat.Odd d.
Proof.
  intros Hn [c Hc]. destruct (Nat.Even_or_Odd d) as [[a Ha]|H]; auto.
  exfalso. destruct Hn as [b Hb]. assert (2 * (c * a) = 2 * b + 1) by nia. lia.
Qed.
