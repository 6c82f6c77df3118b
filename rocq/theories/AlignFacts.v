(** * Alignment of the 32-byte accesses of whole calls *)

From Coq Require Import List Arith Bool Lia.
From Verif Require Import Scalar Mem MemFacts Omp OmpFacts Lanes Stage CoreStage Twid KernelFacts MixedDrive Engine ModelMixed ModelMixedClass ModelPow PowDrive PowKern ModelSix SixIndex ModelApi ModelReal ModelBluestein.
From Verif Require Import Vec ModelVec ModelVecApi VecFacts.
Import ListNotations.

Section Align.
Context {Op : Ops}.

Lemma ends_of n r : pow2 n -> 2 <= n -> n <= r -> r <= 16 -> ends n.
Proof.
  intros [k ->] H2 Hr H16. unfold ends. destruct k as [|[|[|[|[|k]]]]]; cbn in *; lia.
Qed.
Lemma radix_le a : radix a <= 16.
Proof. destruct a; cbn; lia. Qed.
Lemma radix_pow2 a : pow2 (radix a).
Proof. destruct a; [exists 2|exists 3|exists 4|exists 2|exists 3|exists 4]; reflexivity. Qed.
Lemma radix_4 a : exists h, radix a = 4 * h /\ 0 < h.
Proof. destruct a; [exists 1|exists 2|exists 4|exists 1|exists 2|exists 4]; cbn; lia. Qed.
Lemma four_mul a s : four_or_1 s -> four_or_1 (radix a * s).
Proof.
  intros Hs. right. destruct (radix_4 a) as (h & -> & Hh). exists (h * s). split; [lia|].
  destruct Hs as [-> | (h' & -> & H)]; nia.
Qed.

Lemma fft_al o a inv mode W : eptr W -> forall n s eo x y, 2 <= n -> pow2 n -> four_or_1 s -> eptr x -> eptr y ->
  Forall al (fft_va o a inv mode n s eo x y W).
Proof.
  intros HW n s eo x y Hn Hp Hs Hx Hy. unfold fft_va.
  assert (G : forall fuel n s eo x y, n <= fuel -> 2 <= n -> pow2 n -> four_or_1 s -> eptr x -> eptr y ->
    Forall al (dit_rec (@List.app _) [] (radix a) (core_va o a inv W) (fin_va o a inv mode) fuel n s eo x y) /\
    Forall al (dif_rec (@List.app _) [] (radix a) (core_va o a inv W) (fin_va o a inv mode) fuel n s eo x y)).
  { clear n s eo x y Hn Hp Hs Hx Hy. induction fuel as [|fuel IH]; intros n s eo x y Hf Hn Hp Hs Hx Hy; [lia|].
    cbn [dit_rec dif_rec]. destruct (n <=? radix a) eqn:E.
    - apply Nat.leb_le in E. pose proof (radix_le a).
      pose proof (end_al o a inv mode n s eo x y (ends_of _ _ Hp Hn E H) E Hs Hx Hy). auto.
    - apply Nat.leb_gt in E. destruct (pow2_quot n (radix a) Hp (radix_pow2 a) E) as (m & En & Em & Hpm & Hm2 & h & Hh).
      pose proof (core_al o a inv m h s x y W Hh Hs Hx Hy HW) as Hc. rewrite <- En in Hc. rewrite Em.
      assert (m <= fuel) by (destruct (radix_4 a) as (r4 & ? & ?); nia).
      destruct (IH m (radix a * s) (negb eo) y x) as [I1 I2]; auto using four_mul.
      split; apply Forall_app; auto. }
  destruct (is_dit a); apply (G n n s eo x y); auto.
Qed.

Lemma eptr_0 b : eptr (b, 0).
Proof. exists 0. reflexivity. Qed.

Lemma pow_al a b n k x y : eptr x -> eptr y -> Forall al (pow_va a b n k x y).
Proof.
  intros Hx Hy. unfold pow_va. destruct ((1 <=? n) && (n <=? 24)) eqn:E; [|constructor].
  apply andb_true_iff in E. destruct E as [E _]. apply Nat.leb_le in E.
  apply fft_al; auto using eptr_0; [|exists n; auto|left; auto].
  destruct n; [lia|]. cbn. pose proof (pow2_pos n). lia.
Qed.

(** six-step *)
Ltac alp h := match goal with |- al (?p +! ?i, ?p +! ?j) => apply (al_pair p i j h); [assumption|lia|lia] end.
Lemma transpose_al h u v x : eptr x -> Forall al (transpose_va (2 * h) (2 * u) (2 * v) x).
Proof.
  intros Hx. unfold transpose_va. destruct (2 * u =? 2 * v); [constructor|]. cbv zeta. cbn [pairs app].
  constructor; [alp (v + u * (2 * h))|]. constructor; [alp (v + u * (2 * h) + h)|].
  constructor; [alp (u + v * (2 * h))|]. constructor; [alp (u + v * (2 * h) + h)|].
  constructor; [alp (u + v * (2 * h) + h)|]. constructor; [alp (u + v * (2 * h))|].
  constructor; [alp (v + u * (2 * h) + h)|]. constructor; [alp (v + u * (2 * h))|]. constructor.
Qed.
Lemma mult_al h i u v x W : eptr x -> eptr W -> Forall al (mult_va (2 * h) i (2 * u) (2 * v) x W).
Proof.
  intros Hx HW. unfold mult_va. apply Forall_app. split.
  - cbn [pairs]. constructor; [alp (2 * i)|]. constructor; [alp (2 * i + 1)|constructor].
  - destruct (2 * v =? 2 * u); cbv zeta; cbn [pairs app].
    + constructor; [alp (u + u * (2 * h))|]. constructor; [alp (u + u * (2 * h) + h)|].
      constructor; [alp (u + u * (2 * h) + h)|]. constructor; [alp (u + u * (2 * h))|constructor].
    + constructor; [alp (v + u * (2 * h))|]. constructor; [alp (v + u * (2 * h) + h)|].
      constructor; [alp (u + v * (2 * h))|]. constructor; [alp (u + v * (2 * h) + h)|].
      constructor; [alp (u + v * (2 * h) + h)|]. constructor; [alp (u + v * (2 * h))|].
      constructor; [alp (v + u * (2 * h) + h)|]. constructor; [alp (v + u * (2 * h))|constructor].
Qed.
Lemma pow2_half k : 1 <= k -> 2 ^ k = 2 * 2 ^ (k - 1).
Proof. intros H. destruct k; [lia|]. cbn [Nat.pow]. replace (S k - 1) with k by lia. reflexivity. Qed.
Lemma iv_al k f : 1 <= k <= 12 -> (forall i u v, Forall al (f i (2 * u) (2 * v))) ->
  Forall al (vfor (six_L (2 ^ k)) (fun i => iv_va (six_iv (2 ^ k)) i (f i))).
Proof.
  intros Hk Hf. apply Forall_vfor. intros i Hi. rewrite pow2_half in Hi |- * by lia.
  destruct (idx_decode _ i Hi) as (u & v & Huv & Hv & ->).
  unfold iv_va. rewrite six_iv_at; auto. rewrite <- pow2_half by lia. apply Nat.pow_le_mono_r; lia.
Qed.
Lemma six_fft_al inv log_N x y W Ws : 1 <= log_N / 2 <= 12 -> eptr x -> eptr y -> eptr W -> eptr Ws ->
  Forall al (six_fft_va (six_iv (2 ^ (log_N / 2))) inv log_N x y W Ws).
Proof.
  intros Hk Hx Hy HW HWs. unfold six_fft_va. cbv zeta. set (k := log_N / 2) in *.
  assert (Hn : 2 ^ k = 2 * 2 ^ (k - 1)) by (apply pow2_half; lia).
  assert (T : Forall al (vfor (six_L (2 ^ k)) (fun i => iv_va (six_iv (2 ^ k)) i (fun row col => transpose_va (2 ^ k) row col x)))).
  { apply (iv_al k (fun i row col => transpose_va (2 ^ k) row col x)); auto. intros. rewrite Hn. apply transpose_al. auto. }
  assert (R : Forall al (vfor (2 ^ k) (fun p => fft_va false DIF8 inv scale_1 (2 ^ k) 1 false (x +! p * 2 ^ k) (y +! p * 2 ^ k) Ws))).
  { apply Forall_vfor. intros p _. apply fft_al; auto.
    - rewrite Hn. pose proof (pow2_pos (k - 1)). lia.
    - exists k; auto.
    - left; auto.
    - apply (eptr_add x _ (p * 2 ^ (k - 1))); auto. rewrite Hn. lia.
    - apply (eptr_add y _ (p * 2 ^ (k - 1))); auto. rewrite Hn. lia. }
  assert (M : Forall al (vfor (six_L (2 ^ k)) (fun i => iv_va (six_iv (2 ^ k)) i (fun row col => mult_va (2 ^ k) i row col x W)))).
  { apply (iv_al k (fun i row col => mult_va (2 ^ k) i row col x W)); auto. intros. rewrite Hn. apply mult_al; auto. }
  apply Forall_app; split; [exact T|]. apply Forall_app; split; [exact R|].
  apply Forall_app; split; [exact M|]. apply Forall_app; split; [exact R|exact T].
Qed.

Lemma eight_bfly_al inv N mode x y W g h : N / 8 = 2 * h -> eptr x -> eptr y -> eptr W -> Forall al (eight_bfly_va inv N mode x y W (2 * g)).
Proof.
  intros HN Hx Hy HW. unfold eight_bfly_va, vec, eight_lane, rd, wr. cbv zeta. rewrite HN.
  apply Forall_app; split; [|apply Forall_app; split]; apply Forall_group_A; intros e He; change (2 / 2) with 1 in He; assert (e = 0) as -> by lia.
  - cbn [firstn combine]. constructor; [alp g|constructor].
  - cbn [skipn]. rewrite combine_map. apply Forall_seq. intros i _. alp (g + h * i).
  - rewrite combine_map. apply Forall_seq. intros i _. alp (g + h * i).
Qed.
Lemma eight_tr_al N x y g h : N / 8 = 2 * h -> eptr x -> eptr y -> Forall al (eight_tr_va N x y (2 * g)).
Proof.
  intros HN Hx Hy. unfold eight_tr_va. cbv zeta. rewrite HN. apply Forall_vfor. intros i _. cbn [pairs app].
  constructor; [alp (g + 2 * i * h)|]. constructor; [alp (g + 2 * i * h + h)|].
  constructor; [alp (8 * g + i)|]. constructor; [alp (8 * g + i + 4)|constructor].
Qed.
Lemma six_al b n k x y : eptr x -> eptr y -> Forall al (six_va b n k x y).
Proof.
  intros Hx Hy. unfold six_va. cbv zeta.
  destruct (n =? 0) eqn:E0; [constructor|]. apply Nat.eqb_neq in E0.
  destruct (n <=? 5) eqn:E5.
  { apply fft_al; auto using eptr_0; [|exists n; auto|left; auto]. rewrite pow2_half by lia. pose proof (pow2_pos (n - 1)). lia. }
  apply Nat.leb_gt in E5. destruct (24 <? n) eqn:E24; [constructor|]. apply Nat.ltb_ge in E24.
  destruct (Nat.odd n) eqn:Ho.
  - apply Nat.odd_spec in Ho. destruct Ho as [j Hj].
    assert (E1 : n / 2 = j) by (subst n; rewrite Nat.add_comm, Nat.mul_comm, Nat.div_add by lia; reflexivity).
    assert (E2 : (n - 3) / 2 = j - 1) by (subst n; replace (2 * j + 1 - 3) with ((j - 1) * 2) by lia; apply Nat.div_mul; lia).
    assert (E3 : 2 ^ n / 8 = 2 * 2 ^ (n - 4)).
    { replace n with (n - 4 + 4) at 1 by lia. rewrite Nat.pow_add_r. change (2 ^ 4) with (2 * 8). rewrite Nat.mul_assoc, Nat.div_mul by lia. lia. }
    unfold eight_fft_va. cbv zeta. apply Forall_app; split; [|apply Forall_app; split].
    + apply Forall_vstep. intros i _. eapply eight_bfly_al; eauto using eptr_0.
    + apply Forall_vfor. intros i _. rewrite E1, <- E2. apply six_fft_al; auto using eptr_0.
      * rewrite E2. lia.
      * apply (eptr_add y _ (2 ^ (n - 4) * i)); auto. rewrite E3. lia.
      * apply (eptr_add x _ (2 ^ (n - 4) * i)); auto. rewrite E3. lia.
    + apply Forall_vstep. intros i _. eapply eight_tr_al; eauto.
  - apply six_fft_al; auto using eptr_0.
    assert (6 / 2 <= n / 2 <= 24 / 2) by (split; apply Nat.div_le_mono; lia). change (6 / 2) with 3 in H. change (24 / 2) with 12 in H. lia.
Qed.

(** mixed radix *)
Lemma vec_end_across r s x z t f q h g : s = 2 * h -> q = 2 * g -> eptr x -> eptr z ->
  (forall l, t l = lane_end r s x z x [] f (q + l)) -> Forall al (vec 0 Scalar Across Across 2 t).
Proof.
  intros Hs Hq Hx Hz Ht. apply (vec_core_across r 1 s 2 x z x Hx Hz eq_refl 0 t [] f 0 q h g); auto.
  intros l _. rewrite Ht. unfold lane_end, lane_core. cbn [map app]. f_equal; apply map_ext; intros i; f_equal; lia.
Qed.
Definition peven (n : nat) (x y : ptr) : Prop := (exists h, n = 2 * h) -> eptr x /\ eptr y.
Definition sgood (n s : nat) : Prop := s = 1 \/ (exists h, s = 2 * h) \/ exists h, n = 2 * h + 1.

Ltac mod0 H := apply Nat.eqb_eq in H; apply Nat.div_exact in H; [|lia].
Lemma mixed_fft_al W : forall fuel n s eo x y, 0 < n -> sgood n s -> peven n x y -> Forall al (mixed_fft_va fuel n s eo x y W).
Proof.
  induction fuel as [|fuel IH]; intros n s eo x y Hn0 Hs Hp; [constructor|]. cbn [mixed_fft_va].
  destruct (n * s <? 2); [constructor|].
  assert (Hend : forall r f, n = r -> (exists h, r = 2 * h) -> Forall al
    (if 2 <=? s then vstep s 2 (fun q => vec 0 Scalar Across Across 2 (fun l => lane_end r s x (if eo then y else x) x [] f (q + l))) else [])).
  { intros r f Er (hr & Hr). destruct (2 <=? s) eqn:E2; [|constructor]. apply Nat.leb_le in E2.
    destruct (Hp ltac:(exists hr; lia)) as [Hx Hy].
    destruct Hs as [-> | [(h & Hh) | (h & Hh)]]; [lia| |lia].
    apply Forall_vstep. intros j _. apply (vec_end_across r s x (if eo then y else x) _ f (2 * j) h j); auto. destruct eo; auto. }
  assert (Hcore : forall r nt tw f, nt = length (tw 0) -> (forall sp, length (tw sp) = nt) -> n = r * (n / r) -> 0 < r -> (exists h, r = 2 * h) -> Forall al
    (if 2 <=? s then vfor (n / r) (fun p => vstep s 2 (fun q => vec nt Scalar Across Across 2 (fun l => lane_core r (n * s / r) s x y W (tw (s * p)) f (s * p) (q + l)))) else [])).
  { intros r nt tw f _ Htw En Hr0 (hr & Hr). destruct (2 <=? s) eqn:E2; [|constructor]. apply Nat.leb_le in E2.
    destruct (Hp ltac:(exists (hr * (n / r)); rewrite En at 1; rewrite Hr at 1; lia)) as [Hx Hy].
    destruct Hs as [-> | [(h & Hh) | (h & Hh)]]; [lia| |exfalso; set (m := n / r) in *; rewrite En, Hr in Hh; lia].
    assert (EN : n * s / r = n / r * s).
    { set (m := n / r) in *. rewrite En. replace (r * m * s) with (m * s * r) by lia. apply Nat.div_mul. lia. }
    apply Forall_vfor. intros p _. apply Forall_vstep. intros j _. rewrite EN.
    apply (vec_core_across r (n / r) s 2 x y W Hx Hy eq_refl nt _ (tw (s * p)) f p (2 * j) h j); auto. }
  assert (Hrec : forall r, n = r * (n / r) -> 0 < r -> (exists h, r = 2 * h) -> Forall al (mixed_fft_va fuel (n / r) (r * s) (negb eo) y x W)).
  { intros r En Hr0 (hr & Hr). destruct (Hp ltac:(exists (hr * (n / r)); rewrite En at 1; rewrite Hr at 1; lia)) as [Hx Hy].
    apply IH.
    - destruct (n / r); lia.
    - right. left. exists (hr * s). rewrite Hr. lia.
    - intros _. auto. }
  destruct (n mod 8 =? 0) eqn:E8; [mod0 E8|].
  { destruct (n =? 8) eqn:En; [apply Nat.eqb_eq in En; apply (Hend 8 (fun v => v)); auto; exists 4; auto|].
    apply Forall_app; split; [apply (Hcore 8 3 (fun sp => [1 * sp; 2 * sp; 3 * sp]) (fun v => v))|apply (Hrec 8)]; auto; try lia; exists 4; auto. }
  destruct (n mod 4 =? 0) eqn:E4; [mod0 E4|].
  { destruct (n =? 4) eqn:En; [apply Nat.eqb_eq in En; apply (Hend 4 (fun v => v)); auto; exists 2; auto|].
    apply Forall_app; split; [apply (Hcore 4 3 (fun sp => [1 * sp; 2 * sp; 3 * sp]) (fun v => v))|apply (Hrec 4)]; auto; try lia; exists 2; auto. }
  destruct (n mod 2 =? 0) eqn:E2; [mod0 E2|].
  { destruct (n =? 2) eqn:En; [apply Nat.eqb_eq in En; apply (Hend 2 (fun v => v)); auto; exists 1; auto|].
    apply Forall_app; split; [apply (Hcore 2 1 (fun sp => [sp]) (fun v => v))|apply (Hrec 2)]; auto; try lia; exists 1; auto. }
  assert (Hodd : exists h, n = 2 * h + 1).
  { apply Nat.eqb_neq in E2. exists (n / 2). pose proof (Nat.div_mod n 2 ltac:(lia)). pose proof (Nat.mod_upper_bound n 2 ltac:(lia)). lia. }
  destruct Hodd as (hn & Hodd).
  assert (Hoddrec : forall r, n = r * (n / r) -> 0 < r -> Forall al (mixed_fft_va fuel (n / r) (r * s) (negb eo) y x W)).
  { intros r En Hr0. set (m := n / r) in *.
    assert (exists h, m = 2 * h + 1) as (hm & Hm).
    { destruct (Nat.Even_or_Odd m) as [(e & He)|(e & He)]; [|exists e; auto]. exfalso. rewrite He in En. lia. }
    apply IH.
    - lia.
    - right. right. exists hm. auto.
    - intros (e & He). lia. }
  destruct (n mod 5 =? 0) eqn:E5; [mod0 E5|].
  { destruct (n =? 5); [constructor|]. apply Hoddrec; auto; lia. }
  destruct (n mod 3 =? 0) eqn:E3; [mod0 E3|].
  { destruct (n =? 3); [constructor|]. apply Hoddrec; auto; lia. }
  constructor.
Qed.

End Align.
