(** * The butterflies are small DFTs (exact arithmetic) *)

From Coq Require Import Reals List Arith Lia.
From Verif Require Import Scalar RealOps Spec DftFacts Butterfly.
Import ListNotations.

(** [b] maps r values to their DFT of length r *)
Definition is_bfly (inv : bool) (r : nat) (b : list CC -> list CC) : Prop :=
  forall xs, length xs = r ->
    b xs = map (fun j => csum r (fun i => cmul (nth i xs c0) (W inv r (i * j)))) (seq 0 r).

(** [f (tws ++ xs)] is the DFT of length r followed by multiplication of output j by w^j *)
Definition is_core (inv : bool) (r : nat) (f : list CC -> list CC) (tws : list CC) (w : CC) : Prop :=
  forall xs, length xs = r ->
    f (tws ++ xs) = map (fun j => cmul (cpow w j) (csum r (fun i => cmul (nth i xs c0) (W inv r (i * j))))) (seq 0 r).

Lemma W_modpow inv r k : (0 < r)%nat -> W inv r k = cpow (W inv r 1) (k mod r).
Proof. intros H. rewrite <- W_pow, W_mod; auto. Qed.

Lemma csum_modpow inv r (a : nat -> CC) j : (0 < r)%nat ->
  csum r (fun i => cmul (a i) (W inv r (i * j))) = csum r (fun i => cmul (a i) (cpow (W inv r 1) ((i * j) mod r))).
Proof. intros H. apply csum_ext. intros i _. rewrite (W_modpow inv r (i * j)); auto. Qed.

Ltac dest_list xs H n :=
  match n with
  | O => destruct xs as [|? ?]; [|discriminate H]
  | S ?n' => let v := fresh "v" in destruct xs as [|v xs]; [discriminate H|]; dest_list xs H n'
  end.

Lemma W_8_4 inv : cmul (W inv 8 1) (cmul (W inv 8 1) (cmul (W inv 8 1) (W inv 8 1))) = cneg c1.
Proof. rewrite <- !W_add. apply (W_half inv 4). lia. Qed.
Lemma W_4_2 inv : cmul (W inv 4 1) (W inv 4 1) = cneg c1.
Proof. rewrite <- !W_add. apply (W_half inv 2). lia. Qed.
Lemma W_5_5 inv : cmul (W inv 5 1) (cmul (W inv 5 1) (cmul (W inv 5 1) (cmul (W inv 5 1) (W inv 5 1)))) = c1.
Proof. rewrite <- !W_add. apply W_N. lia. Qed.
Lemma W_3_3 inv : cmul (W inv 3 1) (cmul (W inv 3 1) (W inv 3 1)) = c1.
Proof. rewrite <- !W_add. apply W_N. lia. Qed.
Lemma W_16_8 inv : cmul (W inv 16 1) (cmul (W inv 16 1) (cmul (W inv 16 1) (cmul (W inv 16 1) (cmul (W inv 16 1) (cmul (W inv 16 1) (cmul (W inv 16 1) (W inv 16 1))))))) = cneg c1.
Proof. rewrite <- !W_add. apply (W_half inv 8). lia. Qed.

(** the rotations of the kernels as multiplications *)
Lemma w8x_mul z : w8x z = cmul (W false 8 1) z.
Proof. rewrite W_8_1_fwd. csimp; ring. Qed.
Lemma W_8_1_inv : W true 8 1 = (/ sqrt 2, / sqrt 2)%R.
Proof. change true with (negb false). rewrite <- W_conj, W_8_1_fwd. csimp; [reflexivity|ring]. Qed.
Lemma v8x_mul z : v8x z = cmul (W true 8 1) z.
Proof. rewrite W_8_1_inv. csimp; ring. Qed.
Lemma ci_W8 : ci = cmul (W true 8 1) (W true 8 1).
Proof. rewrite <- W_add. rewrite <- W_4_1_inv. symmetry. apply (W_scale true 2 4 1); lia. Qed.
Lemma W8_conj7 inv : W (negb inv) 8 1 = cneg (cmul (W inv 8 1) (cmul (W inv 8 1) (W inv 8 1))).
Proof.
  assert (H : cmul (W inv 8 1) (W (negb inv) 8 1) = c1) by apply W_mul_conj.
  transitivity (cneg (cmul (cmul (W inv 8 1) (cmul (W inv 8 1) (cmul (W inv 8 1) (W inv 8 1)))) (W (negb inv) 8 1))).
  - rewrite W_8_4. ring.
  - transitivity (cneg (cmul (cmul (W inv 8 1) (W (negb inv) 8 1)) (cmul (W inv 8 1) (cmul (W inv 8 1) (W inv 8 1))))); [ring|]. rewrite H. ring.
Qed.

Ltac bfly r :=
  intros xs H; dest_list xs H r; cbn [seq map];
  rewrite !csum_modpow by lia;
  cbv [csum Nat.mul Nat.add Nat.modulo Nat.divmod Nat.sub fst snd cpow nth].

Lemma b2_dft inv : is_bfly inv 2 b2.
Proof. bfly 2. cbn [b2]. rewrite W_2_1. change (0, 0)%R with (@c0 ROps). repeat (apply (f_equal2 cons); [ring|]). reflexivity. Qed.

Ltac jxe Hj := rewrite ?jx_ci, ?Hj.

Lemma ci_W4_inv : ci = W true 4 1.
Proof. symmetry. apply W_4_1_inv. Qed.
Lemma ci_W4_fwd : ci = cneg (W false 4 1).
Proof. rewrite W_4_1_fwd. ring. Qed.

Ltac fin Hw := set (w := W _ _ 1) in *; clearbody w; change (0, 0)%R with (@c0 ROps); repeat (apply (f_equal2 cons); [ring [Hw]|]); reflexivity.

Lemma f4_dft : is_bfly false 4 f4.
Proof.
  bfly 4. cbn [f4]. rewrite !jx_ci, ci_W4_fwd. pose proof (W_4_2 false) as Hw. fin Hw.
Qed.
Lemma i4_dft : is_bfly true 4 i4.
Proof.
  bfly 4. cbn [i4]. rewrite !jx_ci, ci_W4_inv. pose proof (W_4_2 true) as Hw. fin Hw.
Qed.
Lemma f8_dft : is_bfly false 8 f8.
Proof.
  bfly 8. cbn [f8]. rewrite !jx_ci, !w8x_mul, !v8x_mul, ci_W8. change true with (negb false). rewrite !W8_conj7.
  pose proof (W_8_4 false) as Hw. fin Hw.
Qed.
Lemma i8_dft : is_bfly true 8 i8.
Proof.
  bfly 8. cbn [i8]. rewrite !jx_ci, !w8x_mul, !v8x_mul, ci_W8. change false with (negb true). rewrite !W8_conj7.
  pose proof (W_8_4 true) as Hw. fin Hw.
Qed.
Lemma b5_dft inv : is_bfly inv 5 (b5 (W inv 5 1)).
Proof. bfly 5. cbn [b5]. pose proof (W_5_5 inv) as Hw. fin Hw. Qed.
Lemma b3_dft inv : is_bfly inv 3 (b3 (W inv 3 1)).
Proof. bfly 3. cbn [b3]. pose proof (W_3_3 inv) as Hw. fin Hw. Qed.

(** ** twiddle multiplication *)
Lemma tmul_nth ws : forall zs j, (length zs <= length ws)%nat -> (j < length zs)%nat ->
  nth j (tmul ws zs) c0 = cmul (nth j ws c0) (nth j zs c0).
Proof.
  induction ws as [|w ws IH]; intros [|z zs] j Hl Hj; cbn in *; try lia.
  destruct j as [|j]; auto. apply IH; lia.
Qed.
Lemma tmulr_nth ws : forall zs j, (length zs <= length ws)%nat -> (j < length zs)%nat ->
  nth j (tmulr ws zs) c0 = cmul (nth j ws c0) (nth j zs c0).
Proof.
  induction ws as [|w ws IH]; intros [|z zs] j Hl Hj; cbn in *; try lia.
  destruct j as [|j]; [ring|]. apply IH; lia.
Qed.
Lemma tmul_len ws : forall zs : list CC, length (tmul ws zs) = length zs.
Proof. induction ws as [|w ws IH]; intros [|z zs]; cbn; auto. Qed.
Lemma tmulr_len ws : forall zs : list CC, length (tmulr ws zs) = length zs.
Proof. induction ws as [|w ws IH]; intros [|z zs]; cbn; auto. Qed.

Definition wpows (w : CC) (n : nat) : list CC := map (fun j => cpow w (S j)) (seq 0 n).

Lemma nth_ms {A} (g : nat -> A) n j d : (j < n)%nat -> nth j (map g (seq 0 n)) d = g j.
Proof.
  intros H. rewrite (nth_indep _ d (g 0)) by (rewrite map_length, seq_length; auto).
  rewrite map_nth, seq_nth; auto.
Qed.

Lemma list_map_seq {A} (l : list A) d n (g : nat -> A) : length l = n -> (forall j, (j < n)%nat -> nth j l d = g j) -> l = map g (seq 0 n).
Proof.
  intros Hl H. apply (nth_ext _ _ d d); [rewrite map_length, seq_length; auto|].
  intros j Hj. rewrite nth_ms by lia. apply H. lia.
Qed.

Lemma twist_bfly inv r b w xs : (0 < r)%nat -> is_bfly inv r b -> length xs = r ->
  twist (wpows w (r - 1)) (b xs) = map (fun j => cmul (cpow w j) (csum r (fun i => cmul (nth i xs c0) (W inv r (i * j))))) (seq 0 r).
Proof.
  intros Hr Hb Hl. rewrite (Hb xs Hl). destruct r as [|r]; [lia|].
  set (g := fun j => csum (S r) (fun i => cmul (nth i xs c0) (W inv (S r) (i * j)))).
  change (seq 0 (S r)) with (0%nat :: seq 1 r). cbn [map twist].
  apply (f_equal2 cons). { cbn [cpow]. unfold g. set (u := csum _ _). clearbody u. clear. ring. }
  rewrite <- seq_shift, !map_map. replace (S r - 1)%nat with r by lia.
  apply (list_map_seq _ c0).
  - rewrite tmul_len, map_length, seq_length. auto.
  - intros j Hj. rewrite tmul_nth; unfold wpows; rewrite ?map_length, ?seq_length; auto.
    rewrite !nth_ms by auto. reflexivity.
Qed.
Lemma twistr_bfly inv r b w xs : (0 < r)%nat -> is_bfly inv r b -> length xs = r ->
  twistr (wpows w (r - 1)) (b xs) = map (fun j => cmul (cpow w j) (csum r (fun i => cmul (nth i xs c0) (W inv r (i * j))))) (seq 0 r).
Proof.
  intros Hr Hb Hl. rewrite (Hb xs Hl). destruct r as [|r]; [lia|].
  change (seq 0 (S r)) with (0%nat :: seq 1 r). cbn [map twistr].
  apply (f_equal2 cons). { cbn [cpow]. set (u := csum _ _). clearbody u. clear. ring. }
  rewrite <- seq_shift, !map_map. replace (S r - 1)%nat with r by lia.
  apply (list_map_seq _ c0).
  - rewrite tmulr_len, map_length, seq_length. auto.
  - intros j Hj. rewrite tmulr_nth; unfold wpows; rewrite ?map_length, ?seq_length; auto.
    rewrite !nth_ms by auto. reflexivity.
Qed.
