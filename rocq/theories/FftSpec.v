(** * Composition of radix passes (exact arithmetic) *)

From Coq Require Import Reals List Arith Lia.
From Verif Require Import Scalar RealOps Spec DftFacts CoreStage.
Import ListNotations.

(** Z holds s interleaved DFTs of length n of the interleaved arrays in X *)
Definition fft_spec (inv : bool) (n s : nat) (X Z : nat -> CC) : Prop :=
  forall q k, (q < s)%nat -> (k < n)%nat -> Z (q + s * k)%nat = DFT inv n (fun a => X (q + s * a)%nat) k.

(** a decimation-in-frequency pass of radix r *)
Definition dif_spec (inv : bool) (r m s : nat) (X Y : nat -> CC) : Prop :=
  forall p q j, (p < m)%nat -> (q < s)%nat -> (j < r)%nat ->
    Y (q + s * (j + r * p))%nat =
    cmul (W inv (r * m) (j * p)) (csum r (fun i => cmul (X (q + s * p + m * s * i)%nat) (W inv r (i * j)))).

Lemma dif_compose inv r m s X Y Z : (0 < r)%nat -> (0 < m)%nat -> (0 < s)%nat ->
  dif_spec inv r m s X Y -> fft_spec inv m (r * s) Y Z -> fft_spec inv (r * m) s X Z.
Proof.
  intros Hr Hm Hs HY HZ q k Hq Hk.
  destruct (eucl r k Hr) as (j & k' & Hj & Ek).
  assert (Hk' : (k' < m)%nat) by nia.
  replace (q + s * k)%nat with ((q + s * j) + (r * s) * k')%nat by (subst k; nia).
  rewrite HZ; [|nia|auto]. unfold DFT.
  assert (S : forall f, csum (r * m) f = csum m (fun p => csum r (fun i => f (p + m * i)%nat))).
  { intros f. rewrite Nat.mul_comm. apply csum_split_hi. }
  rewrite S. clear S.
  erewrite csum_ext.
  2:{ intros p Hp. replace (q + s * j + r * s * p)%nat with (q + s * (j + r * p))%nat by lia.
      rewrite HY by auto. reflexivity. }
  apply csum_ext. intros p Hp. cbv beta.
  rewrite <- csum_mul_l, <- csum_mul_r.
  apply csum_ext. intros i Hi. cbv beta.
  replace (q + s * (p + m * i))%nat with (q + s * p + m * s * i)%nat by lia.
  assert (E : W inv (r * m) ((p + m * i) * k) = cmul (cmul (W inv (r * m) (j * p)) (W inv m (p * k'))) (W inv r (i * j))).
  { subst k.
    replace ((p + m * i) * (j + r * k'))%nat with ((j * p + r * (p * k')) + m * (i * j) + (r * m) * (i * k'))%nat by lia.
    rewrite W_plus_mulN by nia. rewrite !W_add. rewrite W_scale by auto.
    replace (r * m)%nat with (m * r)%nat at 2 by lia. rewrite W_scale by auto. reflexivity. }
  rewrite E. ring.
Qed.

(** a final pass of radix r *)
Lemma dif_final inv r s X Z : (0 < r)%nat -> dif_spec inv r 1 s X Z -> fft_spec inv r s X Z.
Proof.
  intros Hr H q k Hq Hk. replace (q + s * k)%nat with (q + s * (k + r * 0))%nat by lia.
  rewrite H by (auto; lia). rewrite Nat.mul_0_r, W_0. unfold DFT.
  transitivity (csum r (fun i => cmul (X (q + s * 0 + 1 * s * i)%nat) (W inv r (i * k)))); [ring|].
  apply csum_ext. intros i Hi. do 2 f_equal. lia.
Qed.

(** a decimation-in-time pass of radix r *)
Definition dit_spec (inv : bool) (r m s : nat) (Y X : nat -> CC) : Prop :=
  forall p q j, (p < m)%nat -> (q < s)%nat -> (j < r)%nat ->
    X (q + s * (p + m * j))%nat =
    csum r (fun i => cmul (cmul (Y (q + r * (s * p) + s * i)%nat) (W inv (r * m) (i * p))) (W inv r (i * j))).

Lemma dit_compose inv r m s X Y Z : (0 < r)%nat -> (0 < m)%nat -> (0 < s)%nat ->
  fft_spec inv m (r * s) X Y -> dit_spec inv r m s Y Z -> fft_spec inv (r * m) s X Z.
Proof.
  intros Hr Hm Hs HY HZ q k Hq Hk.
  destruct (eucl m k Hm) as (p & j & Hp & Ek).
  assert (Hj : (j < r)%nat) by nia.
  subst k. rewrite HZ by auto. unfold DFT.
  assert (S : forall f, csum (r * m) f = csum r (fun i => csum m (fun a => f (i + r * a)%nat))).
  { intros f. apply csum_split_hi. }
  rewrite S. clear S.
  apply csum_ext. intros i Hi. cbv beta.
  replace (q + r * (s * p) + s * i)%nat with ((q + s * i) + (r * s) * p)%nat by lia.
  rewrite HY; [|nia|auto]. unfold DFT. rewrite <- !csum_mul_r.
  apply csum_ext. intros a Ha. cbv beta.
  replace (q + s * i + r * s * a)%nat with (q + s * (i + r * a))%nat by lia.
  assert (E : W inv (r * m) ((i + r * a) * (p + m * j)) = cmul (cmul (W inv m (a * p)) (W inv (r * m) (i * p))) (W inv r (i * j))).
  { replace ((i + r * a) * (p + m * j))%nat with ((i * p + r * (a * p)) + m * (i * j) + (r * m) * (a * j))%nat by lia.
    rewrite W_plus_mulN by nia. rewrite !W_add. rewrite W_scale by auto.
    replace (r * m)%nat with (m * r)%nat at 2 by lia. rewrite W_scale by auto. ring. }
  rewrite E. ring.
Qed.

Lemma fft_spec_1 inv X : fft_spec inv 1 1 X X.
Proof.
  intros q k Hq Hk. assert (q = 0)%nat by lia. assert (k = 0)%nat by lia. subst. unfold DFT. cbn [csum].
  change (0 + 1 * 0)%nat with 0%nat. change (0 * 0)%nat with 0%nat. rewrite W_0. change (0,0)%R with (@c0 ROps). ring.
Qed.

Lemma fft_spec_DFT inv n X Z k : (k < n)%nat -> fft_spec inv n 1 X Z -> Z k = DFT inv n X k.
Proof.
  intros Hk H. specialize (H 0%nat k ltac:(lia) Hk). rewrite Nat.mul_1_l, Nat.add_0_l in H. rewrite H.
  apply DFT_ext. intros j Hj. f_equal. lia.
Qed.

Lemma fft_spec_ext inv n s X Z Z' : (forall i, (i < n * s)%nat -> Z i = Z' i) -> fft_spec inv n s X Z -> fft_spec inv n s X Z'.
Proof. intros E H q k Hq Hk. rewrite <- E by nia. apply H; auto. Qed.
