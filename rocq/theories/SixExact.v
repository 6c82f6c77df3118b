(** * The six-step / eight-step object in exact arithmetic *)

From Coq Require Import Reals List Arith ZArith Bool Lia Lra.
From Verif Require Import Scalar RealOps Spec DftFacts Engine ApiSpec FftSpec Butterfly ButterflyFacts CoreStage Twid ModelPow PowDrive PowKern PowRun PowClassFacts MixedSpec PowButterfly PowSpec PowExact ModelSix SixIndex SixRun SixPart SixEight SixClass.
Import ListNotations.
Local Open Scope nat_scope.

Lemma cscal_1 (z : CC) : cscal (Op := ROps) 1%R z = z.
Proof. csimp; ring. Qed.
Lemma sc_1 N : sc N scale_1 = 1%R.
Proof. reflexivity. Qed.

Lemma row_exact inv n (X : nat -> CC) k : pow2 n -> 2 <= n -> k < n -> rowT inv n (Wt_T (Op := ROps) 8 n) X k = DFT inv n X k.
Proof.
  intros Hp H2 Hk. unfold rowT.
  pose proof (pow_ff_spec false DIF8 inv scale_1 n n 1 (Wt_T 8 n) X (le_n _) H2 Hp (or_introl eq_refl)) as H.
  rewrite Nat.mul_1_r in H. specialize (H (fun Hlt => Wt_exact DIF8 n Hp (Nat.lt_le_incl _ _ Hlt))).
  rewrite (fft_spec_DFT _ n _ _ k Hk H). apply DFT_ext. intros j _. rewrite sc_1. apply cscal_1.
Qed.

(** ** six steps *)
Section Six.
Variables (n m : nat).
Hypothesis Hn : n = 2 * m.
Hypothesis Hm : 0 < m.
Hypothesis H12 : n <= 2 ^ 12.
Hypothesis Hp : pow2 n.
Notation N := (n * n).

Lemma wsel_exact r c : r < n -> c < n -> wnxn_T (Op := ROps) n (wsel (n / 2) r c) = W false N (r * c).
Proof.
  intros Hr Hc. assert (E2 : n / 2 = m) by (rewrite Hn; apply half_2). rewrite E2.
  destruct (bit_cases r) as (e & He & Er). destruct (bit_cases c) as (d & Hd & Ec).
  set (u := r / 2) in *. set (v := c / 2) in *. clearbody u v.
  assert (Hpos : 0 < N) by nia.
  assert (Hd4 : forall a b, a < 2 -> b < 2 -> (a + 2 * b) mod 2 = a /\ (a + 2 * b) / 2 = b) by (intros a b Ha Hb; split; [apply mod_lin|apply div_lin]; auto).
  destruct (le_lt_dec u v) as [H|H]; rewrite Er, Ec.
  - rewrite wsel_up by auto. rewrite <- Nat.add_assoc. rewrite (wnxn_T_at n m Hn Hm H12 u v (d + 2 * e)) by lia.
    destruct (Hd4 d e Hd He) as [-> ->]. rewrite tw_val_exact by auto. f_equal. lia.
  - rewrite (wsel_lo m v u e d) by auto. rewrite <- Nat.add_assoc. rewrite (wnxn_T_at n m Hn Hm H12 v u (e + 2 * d)) by lia.
    destruct (Hd4 e d He Hd) as [-> ->]. rewrite tw_val_exact by auto. reflexivity.
Qed.

Theorem sixF_exact inv mode (X : nat -> CC) i : i < N ->
  sixF inv N mode n (wnxn_T n) (Wt_T 8 n) X i = cscal (sc N mode) (DFT inv N X i).
Proof.
  intros Hi.
  set (Y := fun e => mulF inv N mode n (wnxn_T n) (rowsF n (rowT inv n (Wt_T 8 n)) (trF n X)) (cell2 n (e / n) (e mod n))).
  set (Z := sixF inv N mode n (wnxn_T n) (Wt_T 8 n) X).
  assert (Hn2 : 2 <= n) by lia.
  assert (H1 : dif_spec inv n n 1 (fun j => cscal (sc N mode) (X j)) Y).
  { intros p q j Hp' Hq Hj. assert (q = 0) by lia. subst q. replace (0 + 1 * (j + n * p)) with (j + n * p) by lia.
    unfold Y. rewrite div_lin, mod_lin by auto. rewrite mulF_cell by auto.
    rewrite wsel_exact by auto. unfold sw. rewrite scalepz_sc.
    assert (E : rowsF n (rowT inv n (Wt_T 8 n)) (trF n X) (cell2 n j p) = csum n (fun a => cmul (X (0 + 1 * p + n * 1 * a)) (W inv n (a * j)))).
    { unfold rowsF. rewrite cell2_div, cell2_mod by auto. rewrite row_exact by auto. unfold DFT. apply csum_ext. intros a Ha.
      replace (p * n + a) with (cell2 n a p) by (unfold cell2; lia). rewrite trF_cell by auto. unfold cell2. do 2 f_equal. lia. }
    rewrite E. change (if inv then cconj ?z else ?z) with (cj inv z). rewrite cj_W.
    erewrite (csum_ext n (fun i0 => cmul (cscal _ _) _)).
    2:{ intros a Ha. cbv beta. rewrite <- cscal_cmul_l. reflexivity. }
    rewrite csum_cscal. replace (p * j) with (j * p) by lia.
    csimp; ring. }
  assert (H2 : fft_spec inv n (n * 1) Y Z).
  { intros r c Hr Hc. rewrite Nat.mul_1_r in *. unfold Z, sixF.
    replace (r + n * c) with (cell2 n r c) by (unfold cell2; lia). rewrite trF_cell by auto.
    unfold rowsF at 1. rewrite cell2_div, cell2_mod by auto. rewrite row_exact by auto. unfold DFT. apply csum_ext. intros j Hj.
    f_equal. unfold Y. rewrite div_lin, mod_lin by auto. f_equal. unfold cell2. lia. }
  pose proof (dif_compose inv n n 1 _ Y Z ltac:(lia) ltac:(lia) ltac:(lia) H1 H2) as H3.
  fold Z. rewrite (fft_spec_DFT inv N _ Z i Hi H3). apply DFT_cscal.
Qed.
End Six.

(** ** eight steps *)
Ltac dl xs H := let v := fresh "x" in destruct xs as [|v xs]; [try discriminate H|try discriminate H; dl xs H].
Lemma eight_form inv N mode (w : CC) xs : length xs = 8 ->
  eight_fn inv N mode (w :: xs) = twist (wpows (cj inv w) 7) (bf inv 8 (map (scalepz N mode) xs)).
Proof.
  intros H. unfold eight_fn. destruct inv; dl xs H;
  match goal with |- _ = twist (wpows _ ?n) ?b => let l := ev n in transitivity (twist l b); [reflexivity|f_equal; unfold cj; pows] end.
Qed.

Theorem eightF_exact n m N inv mode (X : nat -> CC) i : n = 2 * m -> 0 < m -> n <= 2 ^ 12 -> pow2 n -> N = 8 * (n * n) -> i < N ->
  eightF inv N mode n (Wr1_T N) (wnxn_T n) (Wt_T 8 n) X i = cscal (sc N mode) (DFT inv N X i).
Proof.
  intros Hn Hm H12 Hp HN Hi. set (N1 := n * n) in *. assert (Hpos : 0 < N1) by (unfold N1; nia).
  set (B := eightB inv N mode N1 (Wr1_T N) X).
  set (Y := fun e => B (e / 8 + N1 * (e mod 8))).
  set (Z := eightF inv N mode n (Wr1_T N) (wnxn_T n) (Wt_T 8 n) X).
  assert (H1 : dif_spec inv 8 N1 1 (fun j => cscal (sc N mode) (X j)) Y).
  { intros p q j Hp' Hq Hj. assert (q = 0) by lia. subst q. replace (0 + 1 * (j + 8 * p)) with (j + 8 * p) by lia.
    unfold Y. rewrite div_lin, mod_lin by auto. unfold B, eightB. rewrite div_lin, mod_lin by auto.
    rewrite eight_form by reflexivity. pose proof (bf_dft inv 8 ltac:(unfold ends; auto)) as Hbf. rewrite (twist_nth _ 7); [|rewrite Hbf; reflexivity|auto].
    rewrite Wr1_exact by lia. rewrite cj_W.
    rewrite cpow_Wp, <- HN. rewrite map_map, Hbf by reflexivity. rewrite nth_ms by auto. f_equal.
    apply csum_ext. intros a Ha. rewrite nth_ms by auto. rewrite scalepz_sc. do 3 f_equal. lia. }
  assert (H2 : fft_spec inv N1 (8 * 1) Y Z).
  { intros r c Hr Hc. rewrite Nat.mul_1_r in *. unfold Z, eightF. cbv zeta. fold N1. fold B. unfold eightT. rewrite div_lin, mod_lin by auto.
    unfold rowsF. replace (c + r * N1) with (c + N1 * r) by lia. rewrite div_lin, mod_lin by auto.
    unfold N1 at 2. rewrite (sixF_exact n m) by auto. rewrite sc_1, cscal_1. fold N1. apply DFT_ext. intros j Hj. unfold Y.
    rewrite div_lin, mod_lin by auto. f_equal. lia. }
  pose proof (dif_compose inv 8 N1 1 _ Y Z ltac:(lia) Hpos ltac:(lia) H1 H2) as H3.
  rewrite <- HN in H3. fold Z. rewrite (fft_spec_DFT inv N _ Z i Hi H3). apply DFT_cscal.
Qed.

Theorem six_F_exact n k (X : nat -> CC) i : 1 <= n <= 24 -> i < 2 ^ n -> six_F (Op := ROps) n k X i = transform k (2 ^ n) X i.
Proof.
  intros Hn Hi. unfold six_F, transform. cbv zeta.
  assert (Hp : forall j, pow2 (2 ^ j)) by (intros j; eexists; reflexivity).
  pose proof (pow2_pos n) as Hpos. rewrite <- sc_factor by lia.
  destruct (Nat.leb_spec n 5) as [H5|H5]; [|destruct (Nat.odd n) eqn:Eo].
  - assert (H2 : 2 <= 2 ^ n). { destruct n; [lia|]. cbn [Nat.pow]. pose proof (pow2_pos n). lia. }
    rewrite <- DFT_cscal.
    pose proof (pow_ff_spec false DIF8 (meth_inv k) (meth_mode k) (2 ^ n) (2 ^ n) 1 (Wt_T 8 (2 ^ n)) X (le_n _) H2 (Hp n) (or_introl eq_refl)) as H.
    rewrite Nat.mul_1_r in H. specialize (H (fun Hlt => Wt_exact DIF8 (2 ^ n) (Hp n) (Nat.lt_le_incl _ _ Hlt))).
    apply (fft_spec_DFT _ (2 ^ n)); auto.
  - destruct (odd_half n Eo) as (h & E & Eh). rewrite Eh.
    destruct (pow_half (h - 1) ltac:(lia)) as (q & Em & Hm).
    apply (eightF_exact _ q); auto.
    + apply pow_le_12. lia.
    + change 8 with (2 ^ 3). rewrite <- !Nat.pow_add_r. f_equal. lia.
  - destruct (even_half n Eo) as (h & E & Eh). rewrite Eh.
    destruct (pow_half h ltac:(lia)) as (q & Em & Hm).
    assert (EN : 2 ^ n = 2 ^ h * 2 ^ h) by (rewrite <- Nat.pow_add_r; f_equal; lia).
    rewrite EN in *. apply (sixF_exact _ q); auto. apply pow_le_12. lia.
Qed.
