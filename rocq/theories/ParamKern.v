(** * Parametricity of the kernels (see Param.v) *)

From Coq Require Import List Arith ZArith Bool Lia.
From Verif Require Import Scalar Butterfly ModelMixed ModelSix Param SixEight PowKern MixedStage MixedRun ModelPow.
From Verif Require Import ModelDif4 ModelDif8 ModelDif16 ModelDit4 ModelDit8 ModelDit16.
Import ListNotations.

Section ParamKern.
Context {A B : Ops} {R K : @Sc A -> @Sc B -> Prop} (S : sim A B R K).
Notation CR := (@CR A B R).
Notation LR := (@LR A B R).
Notation pl := plen.

Ltac pop :=
  lazymatch goal with
  | |- CR (cadd _ _) _ => apply (p_add S)
  | |- CR (csub _ _) _ => apply (p_sub S)
  | |- CR (cmul _ _) _ => apply (p_mul S)
  | |- CR (jx _) _ => apply (p_jx S)
  | |- CR (mjx _) _ => apply (p_mjx S)
  | |- CR (cneg _) _ => apply (p_neg S)
  | |- CR (cconj _) _ => apply (p_conj S)
  | |- CR (v8x _) _ => apply (p_v8 S)
  | |- CR (w8x _) _ => apply (p_w8 S)
  | |- CR (h1x _) _ => apply (p_h1 S)
  | |- CR (h3x _) _ => apply (p_h3 S)
  | |- CR (hfx _) _ => apply (p_hf S)
  | |- CR (hdx _) _ => apply (p_hd S)
  | |- CR (scalepz _ _ _) _ => apply (p_scalepz S); [assumption|]
  | |- _ => assumption
  end.
Ltac plet :=
  lazymatch goal with
  | |- LR (let a := ?e in @?b a) (let a' := ?e' in @?b' a') =>
      let x := fresh "x" in let x' := fresh "x'" in let H := fresh "H" in
      assert (H : CR e e') by (repeat pop);
      change (LR (b e) (b' e')); generalize H; generalize e e'; clear H; intros x x' H; cbv beta
  end.
Ltac pfin := repeat (apply Forall2_cons; [repeat pop|]); apply Forall2_nil.

Ltac kern H :=
  lazymatch goal with |- LR ?t ?t' => let t1 := eval red in t in let t2 := eval red in t' in change (LR t1 t2) end;
  repeat (destruct H as [|? ? ? ? ? H]; cbv iota beta; [first [apply Forall2_nil|solve [pfin]]|]; try apply Forall2_nil).

Lemma plen_c n : n = 2 \/ n = 4 \/ n = 8 \/ n = 16 -> plen n.
Proof. intros [-> | [-> | [-> | ->]]]; [exists 1|exists 2|exists 3|exists 4]; split; (lia || reflexivity). Qed.

Lemma kf_p o a inv s v v' : LR v v' -> LR (kf o a inv s v) (kf o a inv s v').
Proof.
  intros H. unfold kf. destruct a, o, inv, (s =? 1); kern H.
Qed.
Lemma efdif_p o inv mode n s v v' : (mode = scale_1 \/ plen (n * s)) -> LR v v' -> LR (ef_dif o inv mode n s v) (ef_dif o inv mode n s v').
Proof.
  intros HN H.
  assert (H2 : mode = scale_1 \/ plen 2) by (right; apply plen_c; auto). assert (H4 : mode = scale_1 \/ plen 4) by (right; apply plen_c; auto).
  assert (H8 : mode = scale_1 \/ plen 8) by (right; apply plen_c; auto). assert (H16 : mode = scale_1 \/ plen 16) by (right; apply plen_c; auto).
  unfold ef_dif. do 17 (destruct n as [|n]; [first [exact H|destruct o, inv, (s =? 1); kern H]|]). exact H.
Qed.
Lemma efdit_p o inv mode n s v v' : (mode = scale_1 \/ plen (n * s)) -> LR v v' -> LR (ef_dit o inv mode n s v) (ef_dit o inv mode n s v').
Proof.
  intros HN H.
  assert (H2 : mode = scale_1 \/ plen 2) by (right; apply plen_c; auto). assert (H4 : mode = scale_1 \/ plen 4) by (right; apply plen_c; auto).
  assert (H8 : mode = scale_1 \/ plen 8) by (right; apply plen_c; auto). assert (H16 : mode = scale_1 \/ plen 16) by (right; apply plen_c; auto).
  unfold ef_dit. do 17 (destruct n as [|n]; [first [exact H|destruct o, inv, (s =? 1); kern H]|]). exact H.
Qed.
Lemma ef_p o a inv mode n s v v' : (mode = scale_1 \/ plen (n * s)) -> LR v v' -> LR (ef o a inv mode n s v) (ef o a inv mode n s v').
Proof. unfold ef. destruct (is_dit a); [apply efdit_p|apply efdif_p]. Qed.
Lemma eight_p inv N mode v v' : (mode = scale_1 \/ plen N) -> LR v v' -> LR (eight_fn inv N mode v) (eight_fn inv N mode v').
Proof. intros HN H. unfold eight_fn. destruct inv; kern H. Qed.

(** mixed radix *)
Lemma tmul_p ws ws' : LR ws ws' -> forall zs zs', LR zs zs' -> LR (tmul ws zs) (tmul ws' zs').
Proof.
  induction 1 as [|w w' l l' Hw H IH]; intros zs zs' [|z z' k k' Hz Hk]; cbn [tmul]; try (constructor; assumption).
  constructor; [apply (p_mul S); assumption|]. apply IH. exact Hk.
Qed.
Lemma tmulr_p ws ws' : LR ws ws' -> forall zs zs', LR zs zs' -> LR (tmulr ws zs) (tmulr ws' zs').
Proof.
  induction 1 as [|w w' l l' Hw H IH]; intros zs zs' [|z z' k k' Hz Hk]; cbn [tmulr]; try (constructor; assumption).
  constructor; [apply (p_mul S); assumption|]. apply IH. exact Hk.
Qed.
Lemma twist_p ws ws' zs zs' : LR ws ws' -> LR zs zs' -> LR (twist ws zs) (twist ws' zs').
Proof. intros Hw [|z z' k k' Hz Hk]; cbn [twist]; constructor; [assumption|]. apply tmul_p; assumption. Qed.
Lemma twistr_p ws ws' zs zs' : LR ws ws' -> LR zs zs' -> LR (twistr ws zs) (twistr ws' zs').
Proof. intros Hw [|z z' k k' Hz Hk]; cbn [twistr]; constructor; [assumption|]. apply tmulr_p; assumption. Qed.
Lemma b2_p v v' : LR v v' -> LR (b2 v) (b2 v').
Proof. intros H. kern H. Qed.
Lemma f4_p v v' : LR v v' -> LR (f4 v) (f4 v').
Proof. intros H. kern H. Qed.
Lemma i4_p v v' : LR v v' -> LR (i4 v) (i4 v').
Proof. intros H. kern H. Qed.
Lemma f8_p v v' : LR v v' -> LR (f8 v) (f8 v').
Proof. intros H. kern H. Qed.
Lemma i8_p v v' : LR v v' -> LR (i8 v) (i8 v').
Proof. intros H. kern H. Qed.
Lemma b5_p w w' v v' : CR w w' -> LR v v' -> LR (b5 w v) (b5 w' v').
Proof. intros Hw H. kern H. Qed.
Lemma b3_p w w' v v' : CR w w' -> LR v v' -> LR (b3 w v) (b3 w' v').
Proof. intros Hw H. kern H. Qed.
Ltac mk H f fp :=
  unfold f; repeat (destruct H as [|? ? ? ? ? H]; [apply Forall2_nil|]).
Lemma k_fv_p inv r v v' : LR v v' -> LR (k_fv inv r v) (k_fv inv r v').
Proof.
  intros H.
  assert (C8 : LR (if inv then invcore8_fv v else fwdcore8_fv v) (if inv then invcore8_fv v' else fwdcore8_fv v')).
  { unfold invcore8_fv, fwdcore8_fv. destruct inv; do 3 (destruct H as [|? ? ? ? ? H]; [apply Forall2_nil|]); cbv zeta;
      (apply twist_p; [pfin|]); [apply i8_p|apply f8_p]; exact H. }
  assert (C4 : LR (if inv then invcore4_fv v else fwdcore4_fv v) (if inv then invcore4_fv v' else fwdcore4_fv v')).
  { unfold invcore4_fv, fwdcore4_fv. destruct inv; do 3 (destruct H as [|? ? ? ? ? H]; [apply Forall2_nil|]); cbv zeta;
      (apply twist_p; [pfin|]); [apply i4_p|apply f4_p]; exact H. }
  assert (C2 : LR (core2_f v) (core2_f v')).
  { unfold core2_f. destruct H as [|? ? ? ? ? H]; [apply Forall2_nil|]. apply twist_p; [pfin|]. apply b2_p. exact H. }
  assert (C5 : LR (core5_f v) (core5_f v')).
  { unfold core5_f. do 2 (destruct H as [|? ? ? ? ? H]; [apply Forall2_nil|]). cbv zeta. apply twistr_p; [pfin|]. apply b5_p; assumption. }
  assert (C3 : LR (core3_f v) (core3_f v')).
  { unfold core3_f. do 2 (destruct H as [|? ? ? ? ? H]; [apply Forall2_nil|]). cbv zeta. apply twistr_p; [pfin|]. apply b3_p; assumption. }
  unfold k_fv. do 9 (destruct r as [|r]; [destruct inv; assumption|]). exact C3.
Qed.
Lemma k_fs_p inv r v v' : LR v v' -> LR (k_fs inv r v) (k_fs inv r v').
Proof.
  intros H.
  assert (C8 : LR (if inv then invcore8_fs v else fwdcore8_fs v) (if inv then invcore8_fs v' else fwdcore8_fs v')).
  { unfold invcore8_fs, fwdcore8_fs. destruct inv; do 1 (destruct H as [|? ? ? ? ? H]; [apply Forall2_nil|]); cbv zeta;
      (apply twist_p; [pfin|]); [apply i8_p|apply f8_p]; exact H. }
  assert (C4 : LR (if inv then invcore4_fs v else fwdcore4_fs v) (if inv then invcore4_fs v' else fwdcore4_fs v')).
  { unfold invcore4_fs, fwdcore4_fs. destruct inv; do 1 (destruct H as [|? ? ? ? ? H]; [apply Forall2_nil|]); cbv zeta;
      (apply twist_p; [pfin|]); [apply i4_p|apply f4_p]; exact H. }
  assert (C2 : LR (core2_f v) (core2_f v')).
  { unfold core2_f. destruct H as [|? ? ? ? ? H]; [apply Forall2_nil|]. apply twist_p; [pfin|]. apply b2_p. exact H. }
  unfold k_fs. do 9 (destruct r as [|r]; [destruct inv; assumption|]). exact C2.
Qed.
Lemma k_ef_p inv r v v' : LR v v' -> LR (k_ef inv r v) (k_ef inv r v').
Proof.
  intros H. assert (C5 : LR (end5_f v) (end5_f v')).
  { unfold end5_f. destruct H as [|? ? ? ? ? H]; [apply Forall2_nil|]. apply b5_p; assumption. }
  assert (C3 : LR (end3_f v) (end3_f v')).
  { unfold end3_f. destruct H as [|? ? ? ? ? H]; [apply Forall2_nil|]. apply b3_p; assumption. }
  unfold k_ef. do 9 (destruct r as [|r]; [destruct inv; first [assumption|apply i8_p; exact H|apply f8_p; exact H|apply i4_p; exact H|apply f4_p; exact H|apply b2_p; exact H]|]). exact C3.
Qed.
Lemma k_f_p inv r s v v' : LR v v' -> LR (k_f inv r s v) (k_f inv r s v').
Proof. intros H. unfold k_f, MixedStage.cf. destruct (is2 r); [destruct (2 <=? s)|]; auto using k_fv_p, k_fs_p. Qed.
End ParamKern.
