(** * Two runs of a transform on opposite data give opposite results (see Odd.v) *)

From Coq Require Import Reals ZArith List Bool Arith Lia Lra.
From Flocq Require Import Core.Core IEEE754.BinarySingleNaN.
From Verif Require Import Scalar RealOps Simd PropMysqrt Norm Mem Lanes Engine Butterfly ModelMixed ModelMixedClass ModelSix ModelApi ModelReal ModelBluestein Blocks Stage CoreStage
  Twid MixedStage MixedDrive MixedRun FactorFacts MixedClassFacts ModelPow PowDrive PowKern PowRun PowClassFacts SixIndex SixRun SixPart SixEight SixClass
  ApiFacts RealFacts RealRun DctRun BluesteinRun Param ParamKern ParamFft Ieee64 Grade GradeFft Odd.
Import ListNotations.

(** a table entry and an input, in the arithmetic of tags *)
Definition tW : @C tags := (T0, T0).
Definition tX : @C tags := (T1, T1).
Definition okt (t : tag) : bool := match t with TC | T1 => true | _ => false end.
Definition okT (l : list (@C tags)) : bool := forallb (fun z => okt (fst z) && okt (snd z)) l.

Lemma blB_p {A B : Ops} {R K : @Sc A -> @Sc B -> Prop} (S : sim A B R K) inv N L : len31 N -> @VR A B R (bl_B inv N L (bl_T N)) (bl_B inv N L (bl_T N)).
Proof.
  intros HL i. assert (Hx : forall i, @CR A B R (bl_x inv N (bl_T N) i) (bl_x inv N (bl_T N) i)) by (intros j; unfold bl_x; destruct (j =? 0); [apply (p_c1 S)|apply (bl_T_p S); exact HL]).
  unfold bl_B. destruct (i <? N); [apply Hx|]. destruct (L - i <? N); [apply Hx|apply (p_c0 S)].
Qed.
Section OddFft.
Variables (dc ds : double -> double) (bd : build).
Notation Op := (pair_ops (ieee dc ds bd)).
Notation S := (tag_sim dc ds bd).
Notation CRt := (@CR Op tags TR).
Notation LRt := (@LR Op tags TR).
Notation cplx := (@C Op).

Definition od (x : @Sc Op) : Prop := opp (fst x) (snd x).
Definition we (x : @Sc Op) : Prop := fst x = snd x.
(** data: opposite in the two runs; tables: equal *)
Definition DC (z : cplx) : Prop := od (fst z) /\ od (snd z).
Definition WC (z : cplx) : Prop := we (fst z) /\ we (snd z).
Definition VD (X : nat -> cplx) : Prop := forall i, DC (X i).
Definition VW (X : nat -> cplx) : Prop := forall i, WC (X i).

Lemma okt_od x t : okt t = true -> TR x t -> od x.
Proof. intros H K. eapply t_opp; [exact K|]. destruct t; auto; discriminate. Qed.
Lemma D_of z z' : CRt z z' -> okt (fst z') = true -> okt (snd z') = true -> DC z.
Proof. intros [H1 H2] K1 K2. split; [exact (okt_od _ _ K1 H1)|exact (okt_od _ _ K2 H2)]. Qed.
Lemma X_CR z : DC z -> CRt z tX.
Proof. exact (fun H => H). Qed.
Lemma W_CR z : WC z -> CRt z tW.
Proof. exact (fun H => H). Qed.
Lemma W_of z y : @CR Op _ R1 z y -> @CR Op _ R2 z y -> WC z.
Proof. unfold CR, R1, R2. intros [H1 H2] [K1 K2]. split; unfold we; congruence. Qed.
Lemma VW_of z y : @VR Op _ R1 z y -> @VR Op _ R2 z y -> VW z.
Proof. intros H K i. exact (W_of _ _ (H i) (K i)). Qed.
Notation S1 := (fst_sim (ieee dc ds bd)).
Notation S2 := (snd_sim (ieee dc ds bd)).

Lemma we_Z z : we (sofZ z).
Proof. exact eq_refl. Qed.
Lemma we_div x y : we x -> we y -> we (sdiv x y).
Proof. unfold we. cbn [sdiv pair_ops fst snd]. intros -> ->. exact eq_refl. Qed.
Lemma we_sqrt x : we x -> we (ssqrt x).
Proof. unfold we. cbn [ssqrt pair_ops fst snd]. intros ->. exact eq_refl. Qed.
Lemma we_neg x : we x -> we (sneg x).
Proof. unfold we. cbn [sneg pair_ops fst snd]. intros ->. exact eq_refl. Qed.
Lemma we_mul x y : we x -> we y -> we (smul x y).
Proof. unfold we. cbn [smul pair_ops fst snd]. intros -> ->. exact eq_refl. Qed.
Lemma we_my z : we (smysqrt z).
Proof. unfold we. cbn [smysqrt pair_ops fst snd]. exact eq_refl. Qed.
Hint Resolve we_Z we_div we_sqrt we_neg we_mul we_my : we.
Lemma od_0 : od (@s0 Op).
Proof. eapply okt_od; [|exact (si_ofZ _ _ _ _ S 0)]. reflexivity. Qed.
Lemma dc_0 : DC c0.
Proof. split; exact od_0. Qed.
Lemma wc_0 : WC c0.
Proof. split; apply we_Z. Qed.
Lemma wc_1 : WC c1.
Proof. split; apply we_Z. Qed.
Lemma od_add x y : od x -> od y -> od (sadd x y).
Proof. exact (si_add _ _ _ _ S x T1 y T1). Qed.
Lemma od_sub x y : od x -> od y -> od (ssub x y).
Proof. exact (si_sub _ _ _ _ S x T1 y T1). Qed.
Lemma od_neg x : od x -> od (sneg x).
Proof. exact (si_neg _ _ _ _ S x T1). Qed.
Lemma od_mul x y : we x -> od y -> od (smul x y).
Proof. exact (si_mul _ _ _ _ S x T0 y T1). Qed.
Lemma od_mul' x y : od x -> we y -> od (smul x y).
Proof. exact (si_mul _ _ _ _ S x T1 y T0). Qed.
Lemma dc_add x y : DC x -> DC y -> DC (cadd x y).
Proof. intros Hx Hy. eapply D_of; [apply (p_add S _ _ _ _ (X_CR _ Hx) (X_CR _ Hy))|reflexivity..]. Qed.
Lemma dc_sub x y : DC x -> DC y -> DC (csub x y).
Proof. intros Hx Hy. eapply D_of; [apply (p_sub S _ _ _ _ (X_CR _ Hx) (X_CR _ Hy))|reflexivity..]. Qed.
Lemma dc_conj x : DC x -> DC (cconj x).
Proof. intros Hx. eapply D_of; [apply (p_conj S _ _ (X_CR _ Hx))|reflexivity..]. Qed.
Lemma dc_mul x y : WC x -> DC y -> DC (cmul x y).
Proof. intros Hx Hy. eapply D_of; [apply (p_mul S _ _ _ _ (W_CR _ Hx) (X_CR _ Hy))|reflexivity..]. Qed.
Lemma dc_mul' x y : DC x -> WC y -> DC (cmul x y).
Proof. intros Hx Hy. eapply D_of; [apply (p_mul S _ _ _ _ (X_CR _ Hx) (W_CR _ Hy))|reflexivity..]. Qed.
Lemma dc_mulT x y : WC x -> DC y -> DC (cmulT x y).
Proof. intros Hx Hy. eapply D_of; [apply (p_mulT S _ _ _ _ (W_CR _ Hx) (X_CR _ Hy))|reflexivity..]. Qed.
Lemma dc_mulT' x y : DC x -> WC y -> DC (cmulT x y).
Proof. intros Hx Hy. eapply D_of; [apply (p_mulT S _ _ _ _ (X_CR _ Hx) (W_CR _ Hy))|reflexivity..]. Qed.
Lemma dc_scal (r : @Sc Op) x : we r -> DC x -> DC (@cscal Op r x).
Proof. intros Hr [Hx Hy]. split; apply od_mul; auto. Qed.
Lemma wc_conj x : WC x -> WC (cconj x).
Proof. intros [H1 H2]. split; [exact H1|apply we_neg; exact H2]. Qed.
Lemma wc_scalepz N mode x : (mode = scale_1 \/ plen N) -> WC x -> WC (scalepz N mode x).
Proof.
  intros H [H1 H2]. assert (Hs : we (@scale_of Op N mode)) by (destruct mode; unfold scale_of, s1, sn; auto with we).
  destruct mode; cbn [scalepz]; first [split; assumption|split; apply we_mul; assumption].
Qed.

(** a kernel on tables and data *)
Lemma okT_D l l' : okT l' = true -> LRt l l' -> Forall DC l.
Proof.
  intros H HL. induction HL as [|z z' l l' HC _ IH]; constructor; unfold okT in H; cbn [forallb] in H; apply andb_true_iff in H as [H3 H4]; auto.
  apply andb_true_iff in H3 as [H3 H5]. exact (D_of _ _ HC H3 H5).
Qed.
Lemma LR_rep z0 l : (forall z, In z l -> CRt z z0) -> LRt l (repeat z0 (length l)).
Proof. induction l as [|z l IH]; intros H; cbn [length repeat]; constructor; [apply H; left; reflexivity|]. apply IH. intros; apply H; right; auto. Qed.
Lemma nth_D l j : Forall DC l -> DC (nth j l c0).
Proof. intros H. revert j. induction H as [|z l Hz H IH]; intros [|j]; cbn [nth]; auto using dc_0. Qed.
Lemma kern_D (f : list cplx -> list cplx) fD lT lX : (forall v v', LRt v v' -> LRt (f v) (fD v')) ->
  (forall z, In z lT -> WC z) -> (forall z, In z lX -> DC z) -> okT (fD (repeat tW (length lT) ++ repeat tX (length lX))) = true ->
  Forall DC (f (lT ++ lX)).
Proof.
  intros Hf HT HX Hc. eapply okT_D; [exact Hc|]. apply Hf. apply p_app; apply LR_rep; intros z Hz; [apply W_CR|apply X_CR]; auto.
Qed.
Lemma pass_D (f : list cplx -> list cplx) fD (tw : list nat) r (ri : nat -> nat) T X j : (forall v v', LRt v v' -> LRt (f v) (fD v')) ->
  VW T -> VD X -> okT (fD (repeat tW (length tw) ++ repeat tX r)) = true ->
  DC (nth j (f (map T tw ++ map (fun i => X (ri i)) (seq 0 r))) c0).
Proof.
  intros Hf HT HX Hc. apply nth_D. apply (kern_D f fD); auto.
  - intros z Hz. apply in_map_iff in Hz as (t & <- & Ht). apply HT.
  - intros z Hz. apply in_map_iff in Hz as (i & <- & Hi). apply HX.
  - rewrite !map_length, seq_length. exact Hc.
Qed.
Lemma dif_D r m s tw (f : list cplx -> list cplx) fD T X : (forall v v', LRt v v' -> LRt (f v) (fD v')) ->
  (forall p, okT (fD (repeat tW (length (tw p)) ++ repeat tX r)) = true) -> VW T -> VD X -> VD (dif_fun r m s tw f T X).
Proof.
  intros Hf Hc HT HX i. unfold dif_fun, gfun, dif_dec. cbn [fst snd].
  apply (pass_D f fD (tw (i / s / r)) r (fun j => i mod s + s * (i / s / r) + m * s * j)); auto.
Qed.
Lemma dit_D r m s tw (f : list cplx -> list cplx) fD T X : (forall v v', LRt v v' -> LRt (f v) (fD v')) ->
  (forall p, okT (fD (repeat tW (length (tw p)) ++ repeat tX r)) = true) -> VW T -> VD X -> VD (dit_fun r m s tw f T X).
Proof.
  intros Hf Hc HT HX i. unfold dit_fun, gfun, dit_dec. cbn [fst snd].
  apply (pass_D f fD (tw ((i / s) mod m)) r (fun j => i mod s + r * (s * ((i / s) mod m)) + s * j)); auto.
Qed.

(** ** powers of two *)
Lemma kfT_ok o a inv s : okT (@kf tags o a inv s (repeat tW (if o then 1 else radix a - 1) ++ repeat tX (radix a))) = true.
Proof. unfold kf. destruct a, o, inv, (s =? 1); vm_compute; reflexivity. Qed.
Lemma cF_D o a inv m s T X : VW T -> VD X -> VD (PowKern.cF o a inv m s T X).
Proof.
  intros HT HX. unfold PowKern.cF.
  assert (Hk : forall p, okT (@kf tags o a inv s (repeat tW (length (ktw o a m s p)) ++ repeat tX (radix a))) = true) by (intros p; rewrite tw_len; apply kfT_ok).
  destruct (is_dit a); [apply (dit_D _ _ _ _ _ (@kf tags o a inv s))|apply (dif_D _ _ _ _ _ (@kf tags o a inv s))]; auto; intros; apply (kf_p S); auto.
Qed.
Lemma efT_ok o a inv mode k s : k <= 4 -> okT (@ef tags o a inv mode (2 ^ k) s (repeat tX (2 ^ k))) = true.
Proof.
  intros Hk. unfold ef. do 5 (destruct k as [|k]; [destruct (is_dit a); unfold ef_dit, ef_dif; destruct (s =? 1), o, inv, mode; vm_compute; reflexivity|]). lia.
Qed.
Lemma eF_D o a inv mode k s T X : k <= 4 -> (mode = scale_1 \/ plen (2 ^ k * s)) -> VW T -> VD X -> VD (PowKern.eF o a inv mode (2 ^ k) s T X).
Proof.
  intros Hk HN HT HX. unfold PowKern.eF. apply (dif_D _ _ _ _ _ (@ef tags o a inv mode (2 ^ k) s)); auto.
  - intros; apply (ef_p S); auto.
  - intros p. apply efT_ok; exact Hk.
Qed.
Lemma pow_ff_D o a inv mode : forall fuel n k s T X, n = 2 ^ k -> (mode = scale_1 \/ plen (n * s)) -> VW T -> VD X -> VD (pow_ff o a inv mode fuel n s T X).
Proof.
  unfold pow_ff. assert (Hb : bits a <= 4) by (destruct a; cbn; lia).
  assert (HE : forall n k s T X, n = 2 ^ k -> n <= radix a -> (mode = scale_1 \/ plen (n * s)) -> VW T -> VD X -> VD (PowKern.eF o a inv mode n s T X)).
  { intros n k s T X -> H HN HT HX. apply eF_D; auto. apply bits_le in H. lia. }
  destruct (is_dit a); induction fuel as [|fuel IH]; intros n k s T X En HN HT HX; cbn [dit_ff dif_ff]; try exact HX.
  - destruct (Nat.leb_spec n (radix a)) as [H|H]; [eapply HE; eauto|].
    assert (Hp : pow2 n) by (exists k; auto). destruct (pow2_quot n (radix a) Hp (radix_pow2 a) H) as (m & En' & Em & [km Hkm] & _).
    rewrite Em. apply cF_D; [exact HT|]. apply (IH m km); auto. destruct HN as [HN|HN]; [left; exact HN|right].
    replace (m * (radix a * s)) with (n * s) by (rewrite En'; lia). exact HN.
  - destruct (Nat.leb_spec n (radix a)) as [H|H]; [eapply HE; eauto|].
    assert (Hp : pow2 n) by (exists k; auto). destruct (pow2_quot n (radix a) Hp (radix_pow2 a) H) as (m & En' & Em & [km Hkm] & _).
    rewrite Em. apply (IH m km); auto; [|apply cF_D; auto]. destruct HN as [HN|HN]; [left; exact HN|right].
    replace (m * (radix a * s)) with (n * s) by (rewrite En'; lia). exact HN.
Qed.
Lemma Wt_W r N : len31 N -> VW (Wt_T r N).
Proof. intros H. exact (VW_of _ _ (Wt_T_p S1 r N H) (Wt_T_p S2 r N H)). Qed.
Lemma Wr1_W N : len31 N -> VW (Wr1_T N).
Proof. intros H. exact (VW_of _ _ (Wr1_T_p S1 N H) (Wr1_T_p S2 N H)). Qed.
Lemma wnxn_W n : len31 (n * n) -> VW (wnxn_T n).
Proof. intros H. exact (VW_of _ _ (wnxn_T_p S1 n H) (wnxn_T_p S2 n H)). Qed.
Lemma pow_F_D a n k X : n <= 24 -> VD X -> VD (pow_F a n k X).
Proof.
  intros Hn HX. unfold pow_F. cbv zeta. apply (pow_ff_D _ _ _ _ _ (2 ^ n) n 1); auto.
  - right. rewrite Nat.mul_1_r. apply plen_2; auto.
  - pose proof (len31_2 n Hn) as H. exact (VW_of _ _ (pow_T_p S1 a _ H) (pow_T_p S2 a _ H)).
Qed.

(** ** the six-step transform *)
Lemma trF_D n X : VD X -> VD (trF n X).
Proof. intros H e. apply H. Qed.
Lemma rowsF_D n F X : (forall Y, VD Y -> VD (F Y)) -> VD X -> VD (rowsF n F X).
Proof. intros HF HX e. unfold rowsF. apply HF. intros j. apply HX. Qed.
Lemma mulF_D inv N mode n T X : (mode = scale_1 \/ plen N) -> VW T -> VD X -> VD (mulF inv N mode n T X).
Proof.
  intros HN HT HX e. unfold mulF, sw. apply dc_mul; [|apply HX]. apply wc_scalepz; [exact HN|]. destruct inv; [apply wc_conj|]; apply HT.
Qed.
Lemma rowT_D inv n k Ts X : n = 2 ^ k -> VW Ts -> VD X -> VD (rowT inv n Ts X).
Proof. intros En HT HX. unfold rowT. apply (pow_ff_D _ _ _ _ _ n k 1); auto. Qed.
Lemma sixF_D inv N mode n k T Ts X : n = 2 ^ k -> (mode = scale_1 \/ plen N) -> VW T -> VW Ts -> VD X -> VD (sixF inv N mode n T Ts X).
Proof.
  intros En HN HT HTs HX. unfold sixF. apply trF_D. apply rowsF_D; [intros; eapply rowT_D; eauto|].
  apply mulF_D; auto. apply rowsF_D; [intros; eapply rowT_D; eauto|]. apply trF_D. exact HX.
Qed.
Lemma eightT_ok inv N mode : okT (@eight_fn tags inv N mode (repeat tW 1 ++ repeat tX 8)) = true.
Proof. destruct inv, mode; vm_compute; reflexivity. Qed.
Lemma eightF_D inv N mode n k T Tm Ts X : n = 2 ^ k -> (mode = scale_1 \/ plen N) -> VW T -> VW Tm -> VW Ts -> VD X -> VD (eightF inv N mode n T Tm Ts X).
Proof.
  intros En HN HT HTm HTs HX. unfold eightF. cbv zeta. intros e. unfold eightT.
  apply rowsF_D; [intros; eapply sixF_D; eauto|]. intros i. unfold eightB. apply nth_D.
  apply (kern_D (eight_fn inv N mode) (eight_fn inv N mode) [T (i mod (n * n))]).
  - intros; apply (eight_p S); auto.
  - intros z [<-|[]]. apply HT.
  - intros z Hz. apply in_map_iff in Hz as (j & <- & Hj). apply HX.
  - rewrite map_length, seq_length. apply eightT_ok.
Qed.
Lemma six_F_D n k X : n <= 24 -> VD X -> VD (six_F n k X).
Proof.
  intros Hn HX. unfold six_F. cbv zeta. pose proof (plen_2 n Hn) as HP. pose proof (len31_2 n Hn) as HL.
  assert (Hsq : forall h, 2 * h <= 24 -> len31 (2 ^ h * 2 ^ h)) by (intros h Hh; rewrite <- Nat.pow_add_r; apply len31_2; lia).
  destruct (n <=? 5); [|destruct (Nat.odd n)].
  - apply (pow_ff_D _ _ _ _ _ (2 ^ n) n 1); auto; [right; rewrite Nat.mul_1_r; exact HP|apply Wt_W; exact HL].
  - pose proof (Nat.div_mod n 2 ltac:(lia)). apply (eightF_D _ _ _ _ (n / 2 - 1)); auto.
    + apply Wr1_W; exact HL.
    + apply wnxn_W. apply Hsq. lia.
    + apply Wt_W, len31_2. lia.
  - pose proof (Nat.div_mod n 2 ltac:(lia)). apply (sixF_D _ _ _ _ (n / 2)); auto.
    + apply wnxn_W. apply Hsq. lia.
    + apply Wt_W, len31_2. lia.
Qed.

(** ** mixed radix *)
Lemma any_sum_D k i (X W : nat -> cplx) J : J <= k -> (forall j, j < k -> DC (X j)) -> (forall t, t < k -> WC (W t)) -> DC (any_sum k i X W J).
Proof.
  intros HJ HX HW. induction J as [|J IH]; cbn [any_sum]; [exact dc_0|]. apply dc_add; [apply IH; lia|]. apply dc_mul'; [apply HX; lia|apply HW, Nat.mod_upper_bound; lia].
Qed.
Lemma any_fun_D k m s len2 wa tw2 (f : cplx -> cplx -> cplx) T X : (forall i p, length (tw2 i p) = len2) -> len2 <= 1 ->
  (forall x y, DC x -> (0 < len2 -> WC y) -> DC (f x y)) -> VW T -> VD X -> VD (any_fun k m s len2 wa tw2 f T X).
Proof.
  intros Hl Hl1 Hf HT HX i. unfold any_fun, gfun, any_dec. cbn [fst snd].
  unfold any_f, any_tw. cbn [nth]. set (p := i / s / k) in *. set (j := (i / s) mod k) in *. set (q := i mod s) in *.
  set (vs := map T (map wa (seq 0 k) ++ tw2 j p) ++ map (fun i0 => X (q + s * p + m * s * i0)) (seq 0 k)).
  assert (El : length (map T (map wa (seq 0 k) ++ tw2 j p)) = k + len2) by (rewrite map_length, app_length, map_length, seq_length, Hl; reflexivity).
  assert (E1 : forall t, t < k + len2 -> WC (nth t vs c0)).
  { intros t Ht. unfold vs. rewrite app_nth1 by lia. assert (Hin : In (nth t (map T (map wa (seq 0 k) ++ tw2 j p)) c0) (map T (map wa (seq 0 k) ++ tw2 j p))) by (apply nth_In; lia).
    apply in_map_iff in Hin as (u & <- & _). apply HT. }
  assert (E2 : forall t, t < k -> nth (k + len2 + t) vs c0 = X (q + s * p + m * s * t)).
  { intros t Ht. unfold vs. rewrite app_nth2 by lia. rewrite El. replace (k + len2 + t - (k + len2)) with t by lia. apply (nth_map_seq (fun x => X (q + s * p + m * s * x))). exact Ht. }
  apply Hf.
  - apply any_sum_D; auto.
    + intros t Ht. rewrite E2 by exact Ht. apply HX.
    + intros t Ht. apply E1. lia.
  - intros Hpos. apply E1. lia.
Qed.
Lemma any_ff_D inv : forall fuel r n s T X, VW T -> VD X -> VD (any_ff (aeF inv) (acF inv) fuel r n s T X).
Proof.
  induction fuel as [|fuel IH]; intros r n s T X HT HX; cbn [any_ff]; [exact HX|].
  destruct (find_factor n r n) as [k|]; [|exact HX]. destruct (k =? n).
  - unfold aeF. apply any_fun_D; auto.
  - apply IH; [exact HT|]. unfold acF. apply any_fun_D; auto. intros x y Hx Hy. apply dc_mul'; [exact Hx|apply Hy; lia].
Qed.
Lemma kfT_mixed_ok inv r m s p : MixedDrive.radix r -> okT (@k_f tags inv r s (repeat tW (length (k_tw inv r m s p)) ++ repeat tX r)) = true.
Proof.
  intros Hr. unfold k_f, MixedStage.cf, k_tw, ctw, stw. destruct Hr as [-> | [-> | [-> | [-> | ->]]]]; cbn [is2]; destruct (2 <=? s), inv; vm_compute; reflexivity.
Qed.
Lemma keT_mixed_ok inv r s : MixedDrive.radix r -> okT (@k_ef tags inv r (repeat tW (length (k_etw inv r s)) ++ repeat tX r)) = true.
Proof. intros Hr. destruct Hr as [-> | [-> | [-> | [-> | ->]]]]; destruct inv; vm_compute; reflexivity. Qed.
Lemma mixed_ff_D inv : forall fuel n s T X, VW T -> VD X -> VD (mixed_ff inv fuel n s T X).
Proof.
  unfold mixed_ff. induction fuel as [|fuel IH]; intros n s T X HT HX; cbn [fft_ff]; [exact HX|].
  assert (HS : forall r, MixedDrive.radix r -> VD (step_ff (MixedRun.eF inv) (MixedRun.cF inv) (fft_ff (MixedRun.eF inv) (MixedRun.cF inv) (aeF inv) (acF inv) fuel) r n s T X)).
  { intros r Hr. unfold step_ff. destruct (n =? r).
    - unfold MixedRun.eF. apply (dif_D _ _ _ _ _ (@k_ef tags inv r)); auto; [intros; apply (k_ef_p S); auto|intros p; apply keT_mixed_ok; exact Hr].
    - apply IH; [exact HT|]. unfold MixedRun.cF. apply (dif_D _ _ _ _ _ (@k_f tags inv r s)); auto; [intros; apply (k_f_p S); auto|intros p; apply kfT_mixed_ok; exact Hr]. }
  destruct (n * s <? 2); [exact HX|]. unfold MixedDrive.radix in HS. destruct (n mod 8 =? 0); [apply HS; auto|]. destruct (n mod 4 =? 0); [apply HS; auto|].
  destruct (n mod 2 =? 0); [apply HS; auto|]. destruct (n mod 5 =? 0); [apply HS; auto|]. destruct (n mod 3 =? 0); [apply HS; auto 6|].
  apply any_ff_D; auto.
Qed.
Lemma mixed_F_D N k X : len31 N -> VD X -> VD (mixed_F N k X).
Proof.
  intros HN HX. unfold mixed_F. cbv zeta.
  assert (HZ : VD (mixed_ff (meth_inv k) (Datatypes.S N) N 1 (mixed_T N) X)) by (apply mixed_ff_D; [exact (VW_of _ _ (mixed_T_p S1 N HN) (mixed_T_p S2 N HN))|exact HX]).
  destruct k; cbn [mixed_coef]; try exact HZ; intros i; (apply dc_scal; [unfold s1, s2, sn; auto with we|apply HZ]).
Qed.

(** ** ComplexFFT *)
Theorem fft0_F_D N k X : valid_length N -> VD X -> VD (fft0_F N k X).
Proof.
  intros HN HX. unfold fft0_F. destruct (select_ok N) as (e & -> & He); [destruct HN; lia|].
  destruct He as [a n E Hn|n E Hn|]; cbn [engine_F].
  - apply pow_F_D; [lia|exact HX].
  - apply six_F_D; [lia|exact HX].
  - apply mixed_F_D; [apply valid_31; exact HN|exact HX].
Qed.

(** ** RealFFT *)
Lemma rval_D d : od d -> DC (rval d).
Proof. intros H. split; [exact H|exact od_0]. Qed.
Lemma rf_div_D N k v : len31 N -> od v -> od (rf_div N k v).
Proof.
  intros HN H. destruct k; cbn [rf_div]; try exact H; (apply (si_div _ _ _ _ S v T1) with (y' := T0); [exact H|]);
    first [apply (si_ofZK _ _ _ _ S); exact HN|apply (si_sqrtK _ _ _ _ S); exact HN].
Qed.
Lemma rf_mul_D N k v : DC v -> DC (rf_mul N k v).
Proof. intros H. destruct k; cbn [rf_mul]; try exact H; (apply dc_scal; [unfold s1, s2, sn; auto with we|exact H]). Qed.
Lemma ri_mul_D N k v : DC v -> DC (ri_mul N k v).
Proof. intros H. destruct k; cbn [ri_mul]; try exact H; (apply dc_scal; [unfold s1, s2, sn; auto with we|exact H]). Qed.
Lemma U_W N : len31 N -> VW (U_T N).
Proof. intros H. exact (VW_of _ _ (U_T_p S1 N H) (U_T_p S2 N H)). Qed.
Theorem rfft_F_D N k X : real_length N -> VD X -> VD (rfft_F N k X).
Proof.
  intros HN HX. pose proof (real_31 N HN) as HL. unfold rfft_F.
  assert (HZ : VD (fft0_F (N / 2) fwd0 (rf_z X))).
  { apply fft0_F_D; [apply HN|]. intros p. unfold rf_z. split; cbn [fst snd mkC]; apply HX. }
  pose proof (U_W N HL) as HU. generalize dependent (fft0_F (N / 2) fwd0 (rf_z X)). intros Z HZ e.
  assert (Hc : forall i, DC (cmul (U_T N i) (csub (Z i) (cconj (Z (N / 2 - i)))))) by (intros i; apply dc_mul; [apply HU|]; apply dc_sub; [apply HZ|apply dc_conj, HZ]).
  assert (Hf : forall i, DC (rf_half N k (U_T N) Z i)).
  { intros i. unfold rf_half, rf_first, rf_second. cbv zeta. destruct (N / 2 - i <=? N / 4); apply rf_mul_D.
    - apply dc_conj, dc_add; [apply dc_conj, HZ|apply Hc].
    - apply dc_sub; [apply HZ|apply Hc]. }
  unfold rf_out. cbv zeta. destruct (HZ 0) as [Za Zb]. destruct (e =? 0); [|destruct (e <? N / 2); [|destruct (e =? N / 2)]].
  - apply rval_D, rf_div_D; auto. apply od_add; assumption.
  - apply Hf.
  - apply rval_D, rf_div_D; auto. apply od_sub; assumption.
  - apply dc_conj, Hf.
Qed.
Theorem rfft_G_D N k X : real_length N -> VD X -> VD (rfft_G N k X).
Proof.
  intros HN HX. pose proof (real_31 N HN) as HL. unfold rfft_G. pose proof (U_W N HL) as HU.
  assert (HZ : VD (fft0_F (N / 2) (ri_kind k) (ri_z N k (U_T N) X))).
  { apply fft0_F_D; [apply HN|]. intros p. unfold ri_z. cbv zeta. apply ri_mul_D. apply dc_conj, dc_sub; [apply dc_conj, HX|].
    apply dc_mul; [apply HU|]. apply dc_sub; [apply dc_conj|]; apply HX. }
  intros e. unfold ri_out. apply rval_D. destruct (Nat.even e); apply HZ.
Qed.

(** ** RealDCT *)
Lemma V_W N : len31 (2 * N) -> VW (V_T N).
Proof. intros H. exact (VW_of _ _ (V_T_p S1 N H) (V_T_p S2 N H)). Qed.
Theorem dct_res_D N k X : dct_length N -> VD X -> VD (dct_res N k X).
Proof.
  intros HN HX. pose proof (V_W N (dct_31 N HN)) as HV. destruct HN as (HR & _). unfold dct_res. destruct (dmeth_inv k).
  - unfold dct_G. intros e.
    assert (HQ : VD (rfft_G N (dct_kind k) (di_in N (V_T N) X))).
    { apply rfft_G_D; auto. intros i. unfold di_in. destruct (i =? 0); [apply rval_D, HX|]. apply dc_mulT; [apply HV|].
      split; cbn [fst snd mkC]; [apply HX|apply od_neg, HX]. }
    unfold di_out. destruct (Nat.even e); apply HQ.
  - unfold dct_F. intros e.
    assert (HQ : VD (rfft_F N (dct_kind k) (df_in N X))).
    { apply rfft_F_D; auto. intros i. unfold df_in. destruct (i <? N / 2); apply HX. }
    unfold df_out. apply rval_D. destruct (HQ e) as [Q1 Q2], (HV e) as [V1 V2]. apply od_add; first [apply od_mul; assumption|apply od_mul'; assumption].
Qed.

(** ** Bluestein *)
Lemma bl_W N : len31 N -> VW (bl_T N).
Proof. intros H. exact (VW_of _ _ (bl_T_p S1 N H) (bl_T_p S2 N H)). Qed.
Theorem bl_F_D N k X : bl_length N -> VD X -> VD (bl_F N k X).
Proof.
  intros HN HX p. pose proof (bl_31 N HN) as HL. pose proof (bl_W N HL) as HT. unfold bl_F. destruct (Nat.ltb_spec N 2) as [H2|H2]; [apply HX|].
  destruct (pad_loop 32 1 (2 * N - 1)) as [L|] eqn:EL; [|apply HX].
  assert (HV : valid_length L) by (apply (bl_pad_valid N L HN EL); exact H2).
  assert (Hx : forall i, WC (bl_x (meth_inv k) N (bl_T N) i)) by (intros i; unfold bl_x; destruct (i =? 0); [exact wc_1|apply HT]).
  unfold bl_FL. cbv zeta.
  assert (HB : VW (fft0_F L fwd0 (bl_B (meth_inv k) N L (bl_T N)))).
  { eapply VW_of; [apply (fft0_F_p S1); [exact HV|apply (blB_p S1 _ N L HL)]|apply (fft0_F_p S2); [exact HV|apply (blB_p S2 _ N L HL)]]. }
  assert (HP : DC (cmul (fft0_F L invn (fun j => cmul (fft0_F L fwd0 (bl_A (meth_inv k) N (bl_T N) X) j) (fft0_F L fwd0 (bl_B (meth_inv k) N L (bl_T N)) j)) p) (cconj (bl_x (meth_inv k) N (bl_T N) p)))).
  { apply dc_mul'; [|apply wc_conj, Hx]. apply fft0_F_D; [exact HV|]. intros j. apply dc_mul'; [|apply HB].
    apply fft0_F_D; [exact HV|]. intros i. unfold bl_A. destruct (i =? 0); [apply HX|]. destruct (i <? N); [apply dc_mulT'; [apply HX|apply HT]|apply dc_0]. }
  unfold bl_scale, sn. destruct k; try exact HP; (apply dc_scal; [unfold s1, s2, sn; auto with we|exact HP]).
Qed.
End OddFft.
