(** * Parametricity of the transforms (see Param.v) *)

From Coq Require Import List Arith ZArith Bool Lia.
From Verif Require Import Scalar Mem Lanes Engine Butterfly ModelMixed ModelMixedClass ModelSix ModelApi ModelReal ModelBluestein Blocks Stage CoreStage
  Twid MixedStage MixedDrive MixedRun FactorFacts MixedClassFacts ModelPow PowDrive PowKern PowRun PowClassFacts SixIndex SixRun SixPart SixEight SixClass
  ApiFacts RealFacts RealRun DctRun BluesteinRun Param ParamKern.
Import ListNotations.

Section ParamFft.
Context {A B : Ops} {R K : @Sc A -> @Sc B -> Prop} (S : sim A B R K).
Notation CR := (@CR A B R).
Notation LR := (@LR A B R).
Notation VR := (@VR A B R).
Notation fun2 A := ((nat -> @C A) -> (nat -> @C A) -> nat -> @C A).

(** passes *)
Definition FR (F : fun2 A) (G : fun2 B) : Prop := forall T T' X X', VR T T' -> VR X X' -> VR (F T X) (G T' X').

Lemma gfun_p {I} ki ri tw (f : I -> list (@C A) -> list (@C A)) (g : I -> list (@C B) -> list (@C B)) dec :
  (forall k v v', LR v v' -> LR (f k v) (g k v')) ->
  FR (gfun ki ri tw f dec c0) (gfun ki ri tw g dec c0).
Proof.
  intros H T T' X X' HT HX i. unfold gfun. destruct (dec i) as [k j]. apply (p_nth S). apply H.
  apply p_app; apply p_map; intros; [apply HT|apply HX].
Qed.
Lemma dif_fun_p r m s tw f g : (forall v v', LR v v' -> LR (f v) (g v')) -> FR (dif_fun r m s tw f) (dif_fun r m s tw g).
Proof. intros H. apply gfun_p. auto. Qed.
Lemma dit_fun_p r m s tw f g : (forall v v', LR v v' -> LR (f v) (g v')) -> FR (dit_fun r m s tw f) (dit_fun r m s tw g).
Proof. intros H. apply gfun_p. auto. Qed.

(** ** powers of two *)
Lemma cF_p o a inv m s : FR (PowKern.cF o a inv m s) (PowKern.cF o a inv m s).
Proof. unfold PowKern.cF. destruct (is_dit a); [apply dit_fun_p|apply dif_fun_p]; intros; apply (kf_p S); auto. Qed.
Lemma eF_p o a inv mode n s : (mode = scale_1 \/ plen (n * s)) -> FR (PowKern.eF o a inv mode n s) (PowKern.eF o a inv mode n s).
Proof. intros H. apply dif_fun_p. intros; apply (ef_p S); auto. Qed.

Lemma pow_ff_p o a inv mode : forall fuel n k s, n = 2 ^ k -> (mode = scale_1 \/ plen (n * s)) ->
  FR (pow_ff o a inv mode fuel n s) (pow_ff o a inv mode fuel n s).
Proof.
  unfold pow_ff. assert (Hr : 1 < radix a) by (destruct a; cbn; lia).
  destruct (is_dit a); induction fuel as [|fuel IH]; intros n k s En HN T T' X X' HT HX; cbn [dit_ff dif_ff]; try exact HX.
  - destruct (Nat.leb_spec n (radix a)) as [H|H]; [apply eF_p; auto|].
    assert (Hp : pow2 n) by (exists k; auto). destruct (pow2_quot n (radix a) Hp (radix_pow2 a) H) as (m & En' & Em & [km Hkm] & _).
    rewrite Em. apply cF_p; [exact HT|]. apply (IH m km); auto. destruct HN as [HN|HN]; [left; exact HN|right].
    replace (m * (radix a * s)) with (n * s) by (rewrite En'; lia). exact HN.
  - destruct (Nat.leb_spec n (radix a)) as [H|H]; [apply eF_p; auto|].
    assert (Hp : pow2 n) by (exists k; auto). destruct (pow2_quot n (radix a) Hp (radix_pow2 a) H) as (m & En' & Em & [km Hkm] & _).
    rewrite Em. apply (IH m km); auto; [|apply cF_p; auto]. destruct HN as [HN|HN]; [left; exact HN|right].
    replace (m * (radix a * s)) with (n * s) by (rewrite En'; lia). exact HN.
Qed.

(** tables *)
Definition len31 (N : nat) : Prop := (0 < Z.of_nat N <= 2 ^ 31)%Z.
Lemma p_ofN n : R (sofZ (Z.of_nat n)) (sofZ (Z.of_nat n)).
Proof. apply (si_ofZ _ _ _ _ S). Qed.
Lemma theta_p N : len31 N -> R (theta_of N) (theta_of N).
Proof.
  intros H. unfold theta_of. apply (si_div _ _ _ _ S); [|apply (si_ofZK _ _ _ _ S); exact H].
  apply (si_mul _ _ _ _ S); [apply (si_neg _ _ _ _ S), (si_ofZ _ _ _ _ S)|apply (si_pi _ _ _ _ S)].
Qed.
Lemma tw_val_p N k p : len31 N -> CR (tw_val N k p) (tw_val N k p).
Proof.
  intros H. unfold tw_val. apply (p_expj S). apply (si_mul _ _ _ _ S); [apply (si_mul _ _ _ _ S)|]; try apply p_ofN. apply theta_p; auto.
Qed.
Lemma Wt_T_p r N : len31 N -> VR (Wt_T r N) (Wt_T r N).
Proof. intros H i. unfold Wt_T. destruct (i <? N); apply tw_val_p; auto. Qed.
Lemma Wr1_T_p N : len31 N -> VR (Wr1_T N) (Wr1_T N).
Proof. intros H i. unfold Wr1_T. apply (p_expj S). apply (si_mul _ _ _ _ S); [apply theta_p; auto|apply p_ofN]. Qed.
Lemma pow_T_p a N : len31 N -> VR (pow_T a N) (pow_T a N).
Proof.
  intros H. unfold pow_T. destruct (N <=? radix a); [intros i; apply (p_c0 S)|]. destruct (pow_par a N); [apply Wr1_T_p|apply Wt_T_p]; auto.
Qed.
Lemma plen_2 n : n <= 24 -> plen (2 ^ n).
Proof. intros H. exists n. auto. Qed.
Lemma len31_2 n : n <= 24 -> len31 (2 ^ n).
Proof. intros H. apply plen_31, plen_2, H. Qed.

Lemma pow_F_p a n k X X' : n <= 24 -> VR X X' -> VR (pow_F a n k X) (pow_F a n k X').
Proof.
  intros Hn HX. unfold pow_F. cbv zeta. apply (pow_ff_p _ _ _ _ _ (2 ^ n) n 1); auto.
  - right. rewrite Nat.mul_1_r. apply plen_2; auto.
  - apply pow_T_p, len31_2; auto.
Qed.

(** ** the six-step transform *)
Lemma trF_p n X X' : VR X X' -> VR (trF n X) (trF n X').
Proof. intros H e. apply H. Qed.
Lemma rowsF_p n F G X X' : (forall Y Y', VR Y Y' -> VR (F Y) (G Y')) -> VR X X' -> VR (rowsF n F X) (rowsF n G X').
Proof. intros HF HX e. unfold rowsF. apply HF. intros j. apply HX. Qed.
Lemma mulF_p inv N mode n T T' X X' : (mode = scale_1 \/ plen N) -> VR T T' -> VR X X' -> VR (mulF inv N mode n T X) (mulF inv N mode n T' X').
Proof.
  intros HN HT HX e. unfold mulF, sw. apply (p_mul S); [|apply HX]. apply (p_scalepz S); [exact HN|].
  destruct inv; [apply (p_conj S)|]; apply HT.
Qed.
Lemma rowT_p inv n k Ts Ts' X X' : n = 2 ^ k -> VR Ts Ts' -> VR X X' -> VR (rowT inv n Ts X) (rowT inv n Ts' X').
Proof. intros En HT HX. unfold rowT. apply (pow_ff_p _ _ _ _ _ n k 1); auto. Qed.
Lemma sixF_p inv N mode n k T T' Ts Ts' X X' : n = 2 ^ k -> (mode = scale_1 \/ plen N) -> VR T T' -> VR Ts Ts' -> VR X X' ->
  VR (sixF inv N mode n T Ts X) (sixF inv N mode n T' Ts' X').
Proof.
  intros En HN HT HTs HX. unfold sixF. apply trF_p. apply rowsF_p; [intros; eapply rowT_p; eauto|].
  apply mulF_p; auto. apply rowsF_p; [intros; eapply rowT_p; eauto|]. apply trF_p. exact HX.
Qed.
Lemma wnxn_T_p n : len31 (n * n) -> VR (wnxn_T n) (wnxn_T n).
Proof. intros H e. unfold wnxn_T. apply tw_val_p. exact H. Qed.
Lemma eightF_p inv N mode n k T T' Tm Tm' Ts Ts' X X' : n = 2 ^ k -> (mode = scale_1 \/ plen N) ->
  VR T T' -> VR Tm Tm' -> VR Ts Ts' -> VR X X' -> VR (eightF inv N mode n T Tm Ts X) (eightF inv N mode n T' Tm' Ts' X').
Proof.
  intros En HN HT HTm HTs HX. unfold eightF. cbv zeta. intros e. unfold eightT.
  apply rowsF_p; [intros; eapply sixF_p; eauto|]. intros i. unfold eightB. apply (p_nth S). apply (eight_p S); [exact HN|].
  constructor; [apply HT|]. apply p_map. intros; apply HX.
Qed.
Lemma six_F_p n k X X' : n <= 24 -> VR X X' -> VR (six_F n k X) (six_F n k X').
Proof.
  intros Hn HX. unfold six_F. cbv zeta. pose proof (plen_2 n Hn) as HP. pose proof (len31_2 n Hn) as HL.
  assert (Hsq : forall h, 2 * h <= 24 -> len31 (2 ^ h * 2 ^ h)) by (intros h Hh; rewrite <- Nat.pow_add_r; apply len31_2; lia).
  destruct (n <=? 5); [|destruct (Nat.odd n)].
  - apply (pow_ff_p _ _ _ _ _ (2 ^ n) n 1); auto; [right; rewrite Nat.mul_1_r; exact HP|apply Wt_T_p; exact HL].
  - pose proof (Nat.div_mod n 2 ltac:(lia)). apply (eightF_p _ _ _ _ (n / 2 - 1)); auto.
    + apply Wr1_T_p; exact HL.
    + apply wnxn_T_p. apply Hsq. lia.
    + apply Wt_T_p, len31_2. lia.
  - pose proof (Nat.div_mod n 2 ltac:(lia)). apply (sixF_p _ _ _ _ (n / 2)); auto.
    + apply wnxn_T_p. apply Hsq. lia.
    + apply Wt_T_p, len31_2. lia.
Qed.

(** ** mixed radix *)
Lemma any_sum_p k i X X' W W' J : VR X X' -> VR W W' -> CR (any_sum k i X W J) (any_sum k i X' W' J).
Proof.
  intros HX HW. induction J as [|J IH]; cbn [any_sum]; [apply (p_c0 S)|]. apply (p_add S); [exact IH|]. apply (p_mul S); [apply HX|apply HW].
Qed.
Lemma any_fun_p k m s len2 wa tw2 (f : @C A -> @C A -> @C A) (g : @C B -> @C B -> @C B) :
  (forall x x' y y', CR x x' -> CR y y' -> CR (f x y) (g x' y')) ->
  FR (any_fun k m s len2 wa tw2 f) (any_fun k m s len2 wa tw2 g).
Proof.
  intros H. apply gfun_p. intros c v v' Hv. unfold any_f. constructor; [|constructor]. apply H; [|apply (p_nth S); exact Hv].
  apply any_sum_p; intros j; apply (p_nth S); exact Hv.
Qed.
Lemma any_ff_p inv : forall fuel r n s, FR (any_ff (aeF inv) (acF inv) fuel r n s) (any_ff (aeF inv) (acF inv) fuel r n s).
Proof.
  induction fuel as [|fuel IH]; intros r n s T T' X X' HT HX; cbn [any_ff]; [exact HX|].
  destruct (find_factor n r n) as [k|]; [|exact HX]. destruct (k =? n).
  - unfold aeF. apply any_fun_p; auto.
  - apply IH; [exact HT|]. unfold acF. apply any_fun_p; auto. intros; apply (p_mul S); auto.
Qed.
Lemma mixed_ff_p inv : forall fuel n s, FR (mixed_ff inv fuel n s) (mixed_ff inv fuel n s).
Proof.
  unfold mixed_ff. induction fuel as [|fuel IH]; intros n s T T' X X' HT HX; cbn [fft_ff]; [exact HX|].
  assert (HS : forall r, VR (step_ff (MixedRun.eF inv) (MixedRun.cF inv) (fft_ff (MixedRun.eF inv) (MixedRun.cF inv) (aeF inv) (acF inv) fuel) r n s T X)
                            (step_ff (MixedRun.eF inv) (MixedRun.cF inv) (fft_ff (MixedRun.eF inv) (MixedRun.cF inv) (aeF inv) (acF inv) fuel) r n s T' X')).
  { intros r. unfold step_ff. destruct (n =? r).
    - unfold MixedRun.eF. apply dif_fun_p; auto. intros; apply (k_ef_p S); auto.
    - apply IH; [exact HT|]. unfold MixedRun.cF. apply dif_fun_p; auto. intros; apply (k_f_p S); auto. }
  destruct (n * s <? 2); [exact HX|]. destruct (n mod 8 =? 0); [apply HS|]. destruct (n mod 4 =? 0); [apply HS|].
  destruct (n mod 2 =? 0); [apply HS|]. destruct (n mod 5 =? 0); [apply HS|]. destruct (n mod 3 =? 0); [apply HS|].
  apply any_ff_p; auto.
Qed.
Lemma mixed_T_p N : len31 N -> VR (mixed_T N) (mixed_T N).
Proof.
  intros H p. unfold mixed_T. cbv zeta.
  assert (Ht : R (smul (sofZ (Z.of_nat p)) (sdiv (smul s2 spi) (sofZ (Z.of_nat N)))) (smul (sofZ (Z.of_nat p)) (sdiv (smul s2 spi) (sofZ (Z.of_nat N))))).
  { apply (si_mul _ _ _ _ S); [apply p_ofN|]. apply (si_div _ _ _ _ S); [|apply (si_ofZK _ _ _ _ S); exact H].
    apply (si_mul _ _ _ _ S); [apply (si_ofZ _ _ _ _ S)|apply (si_pi _ _ _ _ S)]. }
  split; cbn [fst snd mkC]; [apply (si_cos _ _ _ _ S)|apply (si_neg _ _ _ _ S), (si_sin _ _ _ _ S)]; exact Ht.
Qed.
Lemma coef_p N : len31 N -> R (sdiv s1 (sofZ (Z.of_nat N))) (sdiv s1 (sofZ (Z.of_nat N))).
Proof. intros H. apply (si_div _ _ _ _ S); [apply (si_ofZ _ _ _ _ S)|apply (si_ofZK _ _ _ _ S); exact H]. Qed.
Lemma mixed_F_p N k X X' : len31 N -> VR X X' -> VR (mixed_F N k X) (mixed_F N k X').
Proof.
  intros HN HX. unfold mixed_F. cbv zeta.
  assert (HZ : VR (mixed_ff (meth_inv k) (Datatypes.S N) N 1 (mixed_T N) X) (mixed_ff (meth_inv k) (Datatypes.S N) N 1 (mixed_T N) X'))
    by (apply mixed_ff_p; [apply mixed_T_p; exact HN|exact HX]).
  pose proof (coef_p N HN) as Hc. destruct k; cbn [mixed_coef]; try exact HZ; intros i; (apply (p_scal S); [|apply HZ]); try exact Hc; apply (si_sqrt _ _ _ _ S); assumption.
Qed.

(** ** ComplexFFT *)
Lemma valid_31 N : valid_length N -> len31 N.
Proof. intros (H1 & H2 & _). split; [lia|]. eapply Z.le_trans; [exact H2|]. apply Z.pow_le_mono_r; lia. Qed.
Theorem fft0_F_p N k X X' : valid_length N -> VR X X' -> VR (fft0_F N k X) (fft0_F N k X').
Proof.
  intros HN HX. unfold fft0_F. destruct (select_ok N) as (e & -> & He); [destruct HN; lia|].
  destruct He as [a n E Hn|n E Hn|]; cbn [engine_F].
  - apply pow_F_p; [lia|exact HX].
  - apply six_F_p; [lia|exact HX].
  - apply mixed_F_p; [apply valid_31; exact HN|exact HX].
Qed.

(** ** RealFFT *)
Lemma ilast_p es : forall us us' e, LR us us' -> match ilast es us e, ilast es us' e with Some z, Some z' => CR z z' | None, None => True | _, _ => False end.
Proof.
  induction es as [|w es IH]; intros us us' e H; cbn [ilast]; [destruct us, us'; exact I|].
  destruct H as [|z z' l l' Hz Hl]; [exact I|]. specialize (IH l l' e Hl).
  destruct (ilast es l e), (ilast es l' e); try contradiction; [exact IH|]. destruct (e =? w); [exact Hz|exact I].
Qed.
Lemma tval_p es it us us' : (forall i, LR (us i) (us' i)) -> VR (tval es us it c0) (tval es us' it c0).
Proof.
  intros H e. unfold tval. pose proof (ilast_p (es (it e)) (us (it e)) (us' (it e)) e (H (it e))) as P.
  destruct (ilast (es (it e)) (us (it e)) e), (ilast (es (it e)) (us' (it e)) e); try contradiction; [exact P|apply (p_c0 S)].
Qed.
Lemma half2_p a a' b b' : R a a' -> R b b' -> CR (half2 a b) (half2 a' b').
Proof.
  intros Ha Hb. split; apply (si_div _ _ _ _ S); auto; apply (si_ofZK _ _ _ _ S); split; (reflexivity || (intros E; discriminate E)).
Qed.
Lemma U_T_p N : len31 N -> VR (U_T N) (U_T N).
Proof.
  intros HN. unfold U_T. apply tval_p. intros p. unfold U_us. cbv zeta.
  assert (Ht : R (smul (sn p) (sdiv (smul s2 spi) (sn N))) (smul (sn p) (sdiv (smul s2 spi) (sn N)))).
  { apply (si_mul _ _ _ _ S); [apply p_ofN|]. apply (si_div _ _ _ _ S); [|apply (si_ofZK _ _ _ _ S); exact HN].
    apply (si_mul _ _ _ _ S); [apply (si_ofZ _ _ _ _ S)|apply (si_pi _ _ _ _ S)]. }
  pose proof (si_cos _ _ _ _ S _ _ Ht) as Hc. pose proof (si_neg _ _ _ _ S _ _ (si_sin _ _ _ _ S _ _ Ht)) as Hs.
  assert (H1 : R s1 s1) by apply (si_ofZ _ _ _ _ S). assert (H0 : R s0 s0) by apply (si_ofZ _ _ _ _ S). assert (H2 : R s2 s2) by apply (si_ofZ _ _ _ _ S).
  assert (Hm : R (sofZ (-1)) (sofZ (-1))) by apply (si_ofZ _ _ _ _ S).
  repeat match goal with |- LR (if ?b then _ else _) _ => destruct b end;
    repeat (apply Forall2_cons; [apply half2_p; first [assumption|apply (si_add _ _ _ _ S); assumption|apply (si_sub _ _ _ _ S); assumption|apply (si_neg _ _ _ _ S); assumption]|]); apply Forall2_nil.
Qed.
Lemma rval_p d d' : R d d' -> CR (rval d) (rval d').
Proof. intros H. split; [exact H|apply (si_ofZ _ _ _ _ S)]. Qed.
Lemma rf_div_p N k v v' : len31 N -> R v v' -> R (rf_div N k v) (rf_div N k v').
Proof.
  intros HN H. destruct k; cbn [rf_div]; try exact H; (apply (si_div _ _ _ _ S); [exact H|]);
    first [apply (si_ofZK _ _ _ _ S); exact HN|apply (si_sqrtK _ _ _ _ S); exact HN].
Qed.
Lemma sq_coef_p N z : len31 N -> R (sdiv (sofZ z) (ssqrt (sn N))) (sdiv (sofZ z) (ssqrt (sn N))).
Proof. intros HN. apply (si_div _ _ _ _ S); [apply (si_ofZ _ _ _ _ S)|apply (si_sqrtK _ _ _ _ S); exact HN]. Qed.
Lemma rf_mul_p N k v v' : len31 N -> CR v v' -> CR (rf_mul N k v) (rf_mul N k v').
Proof.
  intros HN H. destruct k; cbn [rf_mul]; try exact H; (apply (p_scal S); [|exact H]); first [apply coef_p; exact HN|apply sq_coef_p; exact HN].
Qed.
Lemma ri_mul_p N k v v' : len31 N -> CR v v' -> CR (ri_mul N k v) (ri_mul N k v').
Proof.
  intros HN H. destruct k; cbn [ri_mul]; try exact H; (apply (p_scal S); [|exact H]); first [apply sq_coef_p; exact HN|apply (si_ofZ _ _ _ _ S)].
Qed.
Lemma real_31 N : real_length N -> len31 N.
Proof. intros (H1 & H2 & H3 & _). split; [lia|]. eapply Z.le_trans; [exact H2|]. apply Z.pow_le_mono_r; lia. Qed.
Theorem rfft_F_p N k X X' : real_length N -> VR X X' -> VR (rfft_F N k X) (rfft_F N k X').
Proof.
  intros HN HX. pose proof (real_31 N HN) as HL. unfold rfft_F.
  assert (HZ : VR (fft0_F (N / 2) fwd0 (rf_z X)) (fft0_F (N / 2) fwd0 (rf_z X'))).
  { apply fft0_F_p; [apply HN|]. intros p. unfold rf_z. split; cbn [fst snd mkC]; apply HX. }
  pose proof (U_T_p N HL) as HU. generalize dependent (fft0_F (N / 2) fwd0 (rf_z X)). generalize dependent (fft0_F (N / 2) fwd0 (rf_z X')). intros Z' Z HZ e.
  assert (Hc : forall k, CR (cmul (U_T N k) (csub (Z k) (cconj (Z (N / 2 - k))))) (cmul (U_T N k) (csub (Z' k) (cconj (Z' (N / 2 - k))))))
    by (intros i; apply (p_mul S); [apply HU|]; apply (p_sub S); [apply HZ|apply (p_conj S), HZ]).
  assert (Hf : forall i, CR (rf_half N k (U_T N) Z i) (rf_half N k (U_T N) Z' i)).
  { intros i. unfold rf_half, rf_first, rf_second. cbv zeta. destruct (N / 2 - i <=? N / 4); apply rf_mul_p; auto.
    - apply (p_conj S), (p_add S); [apply (p_conj S), HZ|apply Hc].
    - apply (p_sub S); [apply HZ|apply Hc]. }
  unfold rf_out. cbv zeta. destruct (HZ 0) as [Za Zb]. destruct (e =? 0); [|destruct (e <? N / 2); [|destruct (e =? N / 2)]].
  - apply rval_p, rf_div_p; auto. apply (si_add _ _ _ _ S); assumption.
  - apply Hf.
  - apply rval_p, rf_div_p; auto. apply (si_sub _ _ _ _ S); assumption.
  - apply (p_conj S), Hf.
Qed.
Theorem rfft_G_p N k X X' : real_length N -> VR X X' -> VR (rfft_G N k X) (rfft_G N k X').
Proof.
  intros HN HX. pose proof (real_31 N HN) as HL. unfold rfft_G. pose proof (U_T_p N HL) as HU.
  assert (HZ : VR (fft0_F (N / 2) (ri_kind k) (ri_z N k (U_T N) X)) (fft0_F (N / 2) (ri_kind k) (ri_z N k (U_T N) X'))).
  { apply fft0_F_p; [apply HN|]. intros p. unfold ri_z. cbv zeta. apply ri_mul_p; auto. apply (p_conj S), (p_sub S); [apply (p_conj S), HX|].
    apply (p_mul S); [apply HU|]. apply (p_sub S); [apply (p_conj S)|]; apply HX. }
  intros e. unfold ri_out. apply rval_p. destruct (Nat.even e); apply HZ.
Qed.

(** ** RealDCT *)
Lemma V_T_p N : len31 (2 * N) -> VR (V_T N) (V_T N).
Proof.
  intros HN. unfold V_T. apply tval_p. intros p. unfold V_us. cbv zeta.
  assert (Ht : R (smul (sn p) (sdiv spi (sn (2 * N)))) (smul (sn p) (sdiv spi (sn (2 * N))))).
  { apply (si_mul _ _ _ _ S); [apply p_ofN|]. apply (si_div _ _ _ _ S); [apply (si_pi _ _ _ _ S)|apply (si_ofZK _ _ _ _ S); exact HN]. }
  pose proof (si_cos _ _ _ _ S _ _ Ht) as Hc. pose proof (si_sin _ _ _ _ S _ _ Ht) as Hs.
  repeat (apply Forall2_cons; [split; assumption|]). apply Forall2_nil.
Qed.
Lemma dct_31 N : dct_length N -> len31 (2 * N).
Proof.
  intros ((E & H & H2 & _) & Hm). unfold len31. split; [lia|]. rewrite Nat2Z.inj_mul. change (2 ^ 31)%Z with (2 * 2 ^ 30)%Z.
  apply Z.mul_le_mono_nonneg_l; [lia|exact H].
Qed.
Theorem dct_res_p N k X X' : dct_length N -> VR X X' -> VR (dct_res N k X) (dct_res N k X').
Proof.
  intros HN HX. pose proof (V_T_p N (dct_31 N HN)) as HV. destruct HN as (HR & _). unfold dct_res. destruct (dmeth_inv k).
  - unfold dct_G. intros e.
    assert (HQ : VR (rfft_G N (dct_kind k) (di_in N (V_T N) X)) (rfft_G N (dct_kind k) (di_in N (V_T N) X'))).
    { apply rfft_G_p; auto. intros i. unfold di_in. destruct (i =? 0); [apply rval_p, HX|]. apply (p_mulT S); [apply HV|].
      split; cbn [fst snd mkC]; [apply HX|apply (si_neg _ _ _ _ S), HX]. }
    unfold di_out. destruct (Nat.even e); apply HQ.
  - unfold dct_F. intros e.
    assert (HQ : VR (rfft_F N (dct_kind k) (df_in N X)) (rfft_F N (dct_kind k) (df_in N X'))).
    { apply rfft_F_p; auto. intros i. unfold df_in. destruct (i <? N / 2); apply HX. }
    unfold df_out. apply rval_p. apply (si_add _ _ _ _ S); apply (si_mul _ _ _ _ S); first [apply HV|apply HQ].
Qed.

(** ** Bluestein *)
Lemma bl_T_p N : len31 N -> VR (bl_T N) (bl_T N).
Proof.
  intros HN e. assert (Hang : forall p, R (bl_ang N p) (bl_ang N p)).
  { intros p. unfold bl_ang. apply (si_mul _ _ _ _ S); [apply p_ofN|]. apply (si_div _ _ _ _ S); [apply (si_pi _ _ _ _ S)|apply (si_ofZK _ _ _ _ S); exact HN]. }
  unfold bl_T. destruct (e =? 0); [apply (p_c1 S)|]. destruct (e =? 2 * N); [apply (p_c1 S)|].
  destruct (e =? N); [split; apply (si_ofZ _ _ _ _ S)|].
  destruct (e <? N); split; cbn [fst snd mkC]; repeat apply (si_neg _ _ _ _ S); first [apply (si_cos _ _ _ _ S)|apply (si_sin _ _ _ _ S)]; apply Hang.
Qed.
Lemma bl_31 N : bl_length N -> len31 N.
Proof. intros (H1 & H2). split; [lia|]. eapply Z.le_trans; [exact H2|]. apply Z.pow_le_mono_r; lia. Qed.
Theorem bl_F_p N k X X' : bl_length N -> VR X X' -> VR (bl_F N k X) (bl_F N k X').
Proof.
  intros HN HX p. pose proof (bl_31 N HN) as HL. pose proof (bl_T_p N HL) as HT. unfold bl_F. destruct (Nat.ltb_spec N 2) as [H2|H2]; [apply HX|].
  destruct (pad_loop 32 1 (2 * N - 1)) as [L|] eqn:EL; [|apply HX].
  assert (HV : valid_length L) by (apply (bl_pad_valid N L HN EL); exact H2).
  assert (Hx : forall i, CR (bl_x (meth_inv k) N (bl_T N) i) (bl_x (meth_inv k) N (bl_T N) i))
    by (intros i; unfold bl_x; destruct (i =? 0); [apply (p_c1 S)|apply HT]).
  unfold bl_FL. cbv zeta.
  assert (HP : CR (cmul (fft0_F L invn (fun j => cmul (fft0_F L fwd0 (bl_A (meth_inv k) N (bl_T N) X) j) (fft0_F L fwd0 (bl_B (meth_inv k) N L (bl_T N)) j)) p) (cconj (bl_x (meth_inv k) N (bl_T N) p)))
    (cmul (fft0_F L invn (fun j => cmul (fft0_F L fwd0 (bl_A (meth_inv k) N (bl_T N) X') j) (fft0_F L fwd0 (bl_B (meth_inv k) N L (bl_T N)) j)) p) (cconj (bl_x (meth_inv k) N (bl_T N) p)))).
  { apply (p_mul S); [|apply (p_conj S), Hx]. apply fft0_F_p; [exact HV|]. intros j. apply (p_mul S).
    - apply fft0_F_p; [exact HV|]. intros i. unfold bl_A. destruct (i =? 0); [apply HX|]. destruct (i <? N); [apply (p_mulT S); [apply HX|apply HT]|apply (p_c0 S)].
    - apply fft0_F_p; [exact HV|]. intros i. unfold bl_B. destruct (i <? N); [apply Hx|]. destruct (L - i <? N); [apply Hx|apply (p_c0 S)]. }
  pose proof (coef_p N HL) as Hc. unfold bl_scale, sn. destruct k; try exact HP; (apply (p_scal S); [|exact HP]); try exact Hc; apply (si_sqrt _ _ _ _ S); assumption.
Qed.
End ParamFft.
