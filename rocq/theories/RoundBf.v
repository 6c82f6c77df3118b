(** * Rounding errors of the butterflies *)

From Coq Require Import Reals ZArith List Arith Lia Lra Psatz.
From Verif Require Import Scalar RealOps Spec DftFacts Norm Simd Round Butterfly ButterflyFacts ModelDif16 PowButterfly.
Import ListNotations.
Local Open Scope R_scope.

Lemma Forall2_impl {X Y} (P Q : X -> Y -> Prop) l k : (forall x y, P x y -> Q x y) -> Forall2 P l k -> Forall2 Q l k.
Proof. intros H F. induction F; constructor; auto. Qed.

Section Bf.
Variables (A : rounding) (bd : build).
Notation F := (fl A bd).
Notation ap := (approx A).
Notation tap := (tapx A).

Lemma ap_add' a b c d x' x B1 y' y B2 : ap a b x' x B1 -> ap c d y' y B2 -> ap (1 + Nat.max a c) (Nat.max b d) (@cadd F x' y') (cadd x y) (B1 + B2).
Proof. intros H1 H2. apply ap_add; eapply ap_mono; eauto; lia || lra. Qed.
Lemma ap_sub' a b c d x' x B1 y' y B2 : ap a b x' x B1 -> ap c d y' y B2 -> ap (1 + Nat.max a c) (Nat.max b d) (@csub F x' y') (csub x y) (B1 + B2).
Proof. intros H1 H2. apply ap_sub; eapply ap_mono; eauto; lia || lra. Qed.

(** inputs: x'_i approximates x_i, bounded by B_i *)
Fixpoint lap (a b : nat) (l' l : list CC) (Bs : list R) : Prop :=
  match l', l, Bs with
  | nil, nil, nil => True
  | x' :: l'1, x :: l1, B :: Bs1 => ap a b x' x B /\ lap a b l'1 l1 Bs1
  | _, _, _ => False
  end.
(** outputs: all bounded by B *)
Definition louts (a b : nat) (l' l : list CC) (B : R) : Prop := Forall2 (fun z' z => ap a b z' z B) l' l.
Definition rs (Bs : list R) : R := fold_right Rplus 0 Bs.

Definition Kbf (r : nat) : nat := match r with 16 => 11 | 8 => 6 | 4 => 2 | _ => 1 end%nat.
Ltac apt := lazymatch goal with
  | |- approx _ _ _ (cadd _ _) _ _ => eapply ap_add'; [apt|apt]
  | |- approx _ _ _ (csub _ _) _ _ => eapply ap_sub'; [apt|apt]
  | |- approx _ _ _ (jx _) _ _ => eapply ap_jx; apt
  | |- approx _ _ _ (v8x _) _ _ => eapply ap_v8; apt
  | |- approx _ _ _ (w8x _) _ _ => eapply ap_w8; apt
  | |- approx _ _ _ (h1x _) _ _ => eapply ap_h1; apt
  | |- approx _ _ _ (h3x _) _ _ => eapply ap_h3; apt
  | |- approx _ _ _ (hfx _) _ _ => eapply ap_hf; apt
  | |- approx _ _ _ (hdx _) _ _ => eapply ap_hd; apt
  | |- approx _ _ _ ?x _ _ => is_var x; eassumption
  end.
Ltac apo := eapply ap_mono; [apt|lia|lia|lra].
Ltac inputs xs' xs Bs H Hl :=
  destruct xs' as [|? xs'], xs as [|? xs], Bs as [|? Bs]; cbn [lap] in H; try contradiction;
  [try discriminate Hl|try discriminate Hl; let H1 := fresh "G" in destruct H as [H1 H]; inputs xs' xs Bs H Hl].

Lemma b2_ap a b xs' xs Bs : lap a b xs' xs Bs -> length xs = 2%nat -> louts (1 + a) b (@b2 F xs') (b2 xs) (rs Bs).
Proof.
  intros H Hl. inputs xs' xs Bs H Hl. unfold rs. cbn [fold_right]. cbv beta iota zeta delta [b2]. unfold louts.
  repeat (constructor; [apo|]). constructor.
Qed.
Lemma bf8_ap inv a b xs' xs Bs : lap a b xs' xs Bs -> length xs = 8%nat -> louts (6 + a) b (@bf F inv 8 xs') (bf inv 8 xs) (rs Bs).
Proof.
  intros H Hl. inputs xs' xs Bs H Hl. unfold rs. cbn [fold_right]. unfold louts. destruct inv; cbv beta iota zeta delta [bf f8 i8];
  repeat (constructor; [apo|]); constructor.
Qed.
Lemma bf4_ap inv a b xs' xs Bs : lap a b xs' xs Bs -> length xs = 4%nat -> louts (2 + a) b (@bf F inv 4 xs') (bf inv 4 xs) (rs Bs).
Proof.
  intros H Hl. inputs xs' xs Bs H Hl. unfold rs. cbn [fold_right]. unfold louts. destruct inv; cbv beta iota zeta delta [bf f4 i4];
  repeat (constructor; [apo|]); constructor.
Qed.
Lemma bf16_ap inv a b xs' xs Bs : lap a b xs' xs Bs -> length xs = 16%nat -> louts (11 + a) b (@bf F inv 16 xs') (bf inv 16 xs) (rs Bs).
Proof.
  intros H Hl. inputs xs' xs Bs H Hl. unfold rs. cbn [fold_right]. unfold louts.
  destruct inv; cbv beta iota zeta delta [bf f16 i16 dif16_fwdend16_1_fn dif16_invend16_1_fn scalepz].
  all: repeat (constructor; [apo|]); constructor.
Qed.
Definition rad4 (r : nat) : Prop := (r = 2 \/ r = 4 \/ r = 8 \/ r = 16)%nat.
Lemma bf_ap inv r a b xs' xs Bs : rad4 r -> lap a b xs' xs Bs -> length xs = r -> louts (Kbf r + a) b (@bf F inv r xs') (bf inv r xs) (rs Bs).
Proof.
  intros [-> | [-> | [-> | ->]]] H Hl; cbn [Kbf].
  - apply b2_ap; auto.
  - apply bf4_ap; auto.
  - apply bf8_ap; auto.
  - apply bf16_ap; auto.
Qed.

(** radix 5 and 3: w1 from the table, its powers computed *)
Lemma b5_ap a b w' w xs' xs Bs : tap 0 1 w' w -> lap a b xs' xs Bs -> length xs = 5%nat -> louts (16 + a) (4 + b) (@b5 F w' xs') (b5 w xs) (rs Bs).
Proof.
  intros Hw H Hl. inputs xs' xs Bs H Hl. unfold rs. cbn [fold_right]. cbv beta iota zeta delta [b5]. unfold louts.
  assert (W2 : tap 3 2 (@cmul F w' w') (cmul w w)) by (apply (ta_mul A bd 0 1 0 1); auto).
  assert (W3 : tap 6 3 (@cmul F w' (@cmul F w' w')) (cmul w (cmul w w))) by (apply (ta_mul A bd 0 1 3 2); auto).
  assert (W4 : tap 9 4 (@cmul F (@cmul F w' w') (@cmul F w' w')) (cmul (cmul w w) (cmul w w))) by (apply (ta_mul A bd 3 2 3 2); auto).
  set (w2' := @cmul F w' w') in *. set (w2 := cmul w w) in *. set (w3' := @cmul F w' w2') in *. set (w3 := cmul w w2) in *.
  set (w4' := @cmul F w2' w2') in *. set (w4 := cmul w2 w2) in *. clearbody w3' w3 w4' w4. clearbody w2' w2.
  assert (M : forall c d v' v e f y' y B, tap c d v' v -> ap e f y' y B -> ap (3 + (c + e)) (d + f) (@cmul F v' y') (cmul v y) B).
  { intros cc dd v' v ee ff y' y BB H1 H2. apply ap_mul; auto. }
  Ltac apm M := lazymatch goal with
    | |- approx _ _ _ (cadd _ _) _ _ => eapply ap_add'; [apm M|apm M]
    | |- approx _ _ _ (cmul _ _) _ _ => eapply M; [eassumption|apm M]
    | |- approx _ _ _ ?x _ _ => is_var x; eassumption
    end.
  repeat (constructor; [eapply ap_mono; [apm M|lia|lia|lra]|]); constructor.
Qed.
Lemma b3_ap a b w' w xs' xs Bs : tap 0 1 w' w -> lap a b xs' xs Bs -> length xs = 3%nat -> louts (8 + a) (2 + b) (@b3 F w' xs') (b3 w xs) (rs Bs).
Proof.
  intros Hw H Hl. inputs xs' xs Bs H Hl. unfold rs. cbn [fold_right]. cbv beta iota zeta delta [b3]. unfold louts.
  assert (W2 : tap 3 2 (@cmul F w' w') (cmul w w)) by (apply (ta_mul A bd 0 1 0 1); auto).
  set (w2' := @cmul F w' w') in *. set (w2 := cmul w w) in *. clearbody w2' w2.
  assert (M : forall c d v' v e f y' y B, tap c d v' v -> ap e f y' y B -> ap (3 + (c + e)) (d + f) (@cmul F v' y') (cmul v y) B).
  { intros cc dd v' v ee ff y' y BB H1 H2. apply ap_mul; auto. }
  repeat (constructor; [eapply ap_mono; [apm M|lia|lia|lra]|]); constructor.
Qed.

(** ** multiplication by twiddle factors *)
Definition ltw (c d : nat) (ws' ws : list CC) : Prop := Forall2 (fun w' w => tap c d w' w) ws' ws.
Lemma tmul_ap c d a b B ws' ws zs' zs : ltw c d ws' ws -> louts a b zs' zs B ->
  louts (3 + (c + a)) (d + b) (@tmul F ws' zs') (tmul ws zs) B.
Proof.
  intros Hw. revert zs' zs. induction Hw as [|w' w ws' ws H1 Hw IH]; intros zs' zs Hz.
  - cbn [tmul]. eapply Forall2_impl; [|exact Hz]. intros x y H. cbv beta in H |- *. eapply ap_mono; eauto; lia || lra.
  - destruct Hz as [|z' z zs' zs H2 Hz]; cbn [tmul]; constructor.
    + apply ap_mul; auto.
    + apply IH; auto.
Qed.
Lemma twist_ap c d a b B ws' ws zs' zs : ltw c d ws' ws -> louts a b zs' zs B -> louts (3 + (c + a)) (d + b) (@twist F ws' zs') (twist ws zs) B.
Proof.
  intros Hw Hz. destruct Hz as [|z' z zs' zs H2 Hz]; cbn [twist]; constructor.
  - eapply ap_mono; eauto; lia || lra.
  - apply tmul_ap; auto.
Qed.
Lemma tmulr_ap c d a b B ws' ws zs' zs : ltw c d ws' ws -> louts a b zs' zs B ->
  louts (3 + (a + c)) (b + d) (@tmulr F ws' zs') (tmulr ws zs) B.
Proof.
  intros Hw. revert zs' zs. induction Hw as [|w' w ws' ws H1 Hw IH]; intros zs' zs Hz.
  - cbn [tmulr]. eapply Forall2_impl; [|exact Hz]. intros x y H. cbv beta in H |- *. eapply ap_mono; eauto; lia || lra.
  - destruct Hz as [|z' z zs' zs H2 Hz]; cbn [tmulr]; constructor.
    + apply ap_mulr; auto.
    + apply IH; auto.
Qed.
Lemma twistr_ap c d a b B ws' ws zs' zs : ltw c d ws' ws -> louts a b zs' zs B -> louts (3 + (a + c)) (b + d) (@twistr F ws' zs') (twistr ws zs) B.
Proof.
  intros Hw Hz. destruct Hz as [|z' z zs' zs H2 Hz]; cbn [twistr]; constructor.
  - eapply ap_mono; eauto; lia || lra.
  - apply tmulr_ap; auto.
Qed.
(** the inputs of decimation-in-time kernels *)
Lemma tmul_lap c d ws' ws : ltw c d ws' ws -> forall xs' xs Bs, lap 0 0 xs' xs Bs -> lap (3 + c) d (@tmul F ws' xs') (tmul ws xs) Bs.
Proof.
  intros Hw. induction Hw as [|w' w ws' ws H1 Hw IH]; intros xs' xs Bs H.
  - cbn [tmul]. revert xs xs' H. induction Bs as [|B Bs IH]; intros [|x xs] [|x' xs'] H; cbn [lap] in *; auto. destruct H as [H1 H2].
    split; [eapply ap_mono; eauto; lia || lra|auto].
  - destruct xs' as [|x' xs'], xs as [|x xs], Bs as [|B Bs]; cbn [lap] in H; try contradiction; cbn [tmul lap]; auto.
    destruct H as [H2 H]. split; [|apply IH; auto]. eapply ap_mono; [apply ap_mul; eauto|lia|lia|lra].
Qed.
Lemma twist_lap c d ws' ws xs' xs Bs : ltw c d ws' ws -> lap 0 0 xs' xs Bs -> lap (3 + c) d (@twist F ws' xs') (twist ws xs) Bs.
Proof.
  intros Hw H. destruct xs' as [|x' xs'], xs as [|x xs], Bs as [|B Bs]; cbn [lap] in H; try contradiction; cbn [twist lap]; auto.
  destruct H as [H2 H]. split; [eapply ap_mono; eauto; lia || lra|]. apply tmul_lap; auto.
Qed.

Lemma lap_id (X : nat -> CC) l : lap 0 0 (map X l) (map X l) (map (fun i => cabs (X i) + psi A) l).
Proof. induction l as [|i l IH]; cbn [map lap]; [auto|]. split; [apply ap_id|apply IH]. Qed.
Lemma lap_mono a b a' b' xs' xs Bs : (a <= a')%nat -> (b <= b')%nat -> lap a b xs' xs Bs -> lap a' b' xs' xs Bs.
Proof.
  intros Ha Hb. revert xs xs'. induction Bs as [|B Bs IH]; intros [|x xs] [|x' xs'] H; cbn [lap] in *; auto. destruct H as [H1 H2].
  split; [eapply ap_mono; eauto; lia || lra|auto].
Qed.
Lemma louts_mono a b a' b' zs' zs B : (a <= a')%nat -> (b <= b')%nat -> louts a b zs' zs B -> louts a' b' zs' zs B.
Proof. intros Ha Hb H. eapply Forall2_impl; [|exact H]. intros x y Hx. cbv beta in Hx |- *. eapply ap_mono; eauto; lia || lra. Qed.
Lemma louts_nth a b zs' zs B j : louts a b zs' zs B -> (j < length zs)%nat -> ap a b (nth j zs' (@c0 F)) (nth j zs c0) B.
Proof.
  intros H. revert j. induction H as [|z' z zs' zs H1 H IH]; intros [|j] Hj; cbn [length nth] in *; try lia; auto. apply IH. lia.
Qed.
Lemma rs_seq f r : rs (map f (seq 0 r)) = rsum r f.
Proof.
  assert (G : forall n k, rs (map f (seq k n)) = rsum n (fun i => f (k + i)%nat)).
  { induction n as [|n IH]; intros k; [reflexivity|]. cbn [seq map rs fold_right]. fold (rs (map f (seq (S k) n))). rewrite IH.
    change (S n) with (1 + n)%nat. rewrite (rsum_app 1 n). cbn [rsum]. rewrite Nat.add_0_r, Rplus_0_l. f_equal. apply rsum_ext. intros i _. f_equal. lia. }
  rewrite G. reflexivity.
Qed.
End Bf.
