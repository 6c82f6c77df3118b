(** * The six-step transform, serial and parallel (any arithmetic) *)

From Coq Require Import List Arith ZArith Bool Lia.
From Verif Require Import Scalar Mem MemFacts Omp OmpFacts Lanes Stage CoreStage Twid Object ObjectFacts Engine Steps MixedDrive ModelPow PowDrive PowKern PowRun ModelSix SixIndex SixRun.
Import ListNotations.

Section SixPart.
Context {Op : Ops}.
Notation mem := (mem C).
Notation prog := (prog C).

(** entries of the row-transform table; no table is needed for rows of length <= 8 *)
Definition NWs (n i : nat) : Prop := 8 < n /\ Wt_P 8 n i.

(** the row transform as a function of its table *)
Definition rowT (inv : bool) (n : nat) (Ts : nat -> C) : (nat -> C) -> nat -> C := pow_ff false DIF8 inv scale_1 n n 1 Ts.

(** the whole six-step transform as a function of its two tables *)
Definition sixF (inv : bool) (N0 : nat) (mode : smode) (n : nat) (T Ts X : nat -> C) : nat -> C :=
  trF n (rowsF n (rowT inv n Ts) (mulF inv N0 mode n T (rowsF n (rowT inv n Ts) (trF n X)))).


Section Rows.
Variables (n h : nat) (x y Ws : ptr).
Hypothesis Hn : n = 2 ^ h.
Hypothesis Hh1 : 1 <= h.
Notation N := (n * n).
Variables (inv : bool) (m0 : mem) (X Ts : nat -> C).
Hypothesis Hh : holds m0 x N X.
Hypothesis Hy : allocd m0 (inR y N).
Hypothesis HT : tab m0 Ws (NWs n) Ts.
Hypothesis Hxy : disjR x N y N.
Hypothesis HWx : disjT Ws (NWs n) x N.
Hypothesis HWy : disjT Ws (NWs n) y N.

Lemma disjT_sub (W0 : ptr) (P : nat -> Prop) z M a k : disjT W0 P z M -> a + k <= M -> disjT W0 P (z +! a) k.
Proof. intros H Ha i j Hi Hj E. rewrite padd_padd in E. apply (H i (a + j)); auto. lia. Qed.

Lemma rows_loop : exists m', Loop n (six_row inv n x y Ws) (inT Ws (NWs n)) (xy x y N) m0 m' /\ holds m' x N (rowsF n (rowT inv n Ts) X).
Proof.
  assert (Hn2 : 2 <= n) by (rewrite Hn; destruct h as [|h']; [lia|]; cbn [Nat.pow]; pose proof (pow2_pos h'); lia).
  assert (Hp2 : pow2 n) by (rewrite Hn; eexists; reflexivity).
  set (S := fun p l => xy (x +! p * n) (y +! p * n) n l).
  assert (HS : forall p l, p < n -> S p l -> xy x y N l).
  { intros p l Hp [(i & Hi & ->)|(i & Hi & ->)]; rewrite padd_padd; [left|right]; apply inR_i; nia. }
  destruct (loop_ok n (six_row inv n x y Ws) (fun _ => inT Ws (NWs n)) S
    (fun p mi => holds mi (x +! p * n) n (rowT inv n Ts (fun j => X (p * n + j)))) m0) as (m' & HL & Hv).
  - intros p Hp. unfold six_row. cbv zeta.
    pose proof (fft_s_C DIF8 inv scale_1 n 1 false (x +! p * n) (y +! p * n) Ws Hn2 Hp2 (or_introl eq_refl) (NWs n)) as HC.
    rewrite Nat.mul_1_r in HC.
    assert (HC' := HC (fun Hlt i Hi => conj Hlt Hi)). clear HC.
    assert (Hok : okT n Ws (NWs n) (x +! p * n) (y +! p * n)).
    { split; [|split].
      - apply (disjR_sub x N y N); auto; nia.
      - apply (disjT_sub _ _ _ N); auto. nia.
      - apply (disjT_sub _ _ _ N); auto. nia. }
    destruct (Computes_Step _ _ _ _ _ _ _ _ _ m0 Ts (fun j => X (p * n + j)) (HC' Hok)) as (mi & HSt & Hho).
    + apply (holds_sub m0 x N (p * n) n X); auto. nia.
    + auto.
    + intros l Hl. destruct (HS p l Hp Hl) as [Hl'|Hl']; [eapply holds_allocd; eauto|auto].
    + exists mi. split; auto. destruct HSt as (D & Hr). split; auto. eapply dfp_mono; [| |exact D].
      * intros l [Hl|Hl]; auto. right. left. exact Hl.
      * auto.
  - intros i j l Hi Hj Hne Hl. split.
    + intros (a & Ha & ->). destruct (HS i _ Hi Hl) as [(b & Hb & E)|(b & Hb & E)]; [eapply HWx|eapply HWy]; eauto.
    + intros Hl'. assert (Hx : forall z a b, z +! i * n +! a = z +! j * n +! b -> a < n -> b < n -> False).
      { intros z a b E Ha Hb. rewrite !padd_padd in E. apply padd_inj in E. apply Hne.
        assert (E' : a + n * i = b + n * j) by lia. eapply divmod_unique in E' as [_ E']; eauto. }
      assert (Hc : forall a b, x +! i * n +! a <> y +! j * n +! b \/ ~ (a < n /\ b < n)).
      { intros a b. destruct (lt_dec a n); [|right; lia]. destruct (lt_dec b n); [|right; lia]. left.
        rewrite !padd_padd. apply Hxy; nia. }
      assert (Hc' : forall a b, x +! j * n +! a <> y +! i * n +! b \/ ~ (a < n /\ b < n)).
      { intros a b. destruct (lt_dec a n); [|right; lia]. destruct (lt_dec b n); [|right; lia]. left.
        rewrite !padd_padd. apply Hxy; nia. }
      destruct Hl as [(a & Ha & ->)|(a & Ha & ->)], Hl' as [(b & Hb & E)|(b & Hb & E)].
      * eapply Hx; eauto.
      * destruct (Hc a b); [auto|tauto].
      * destruct (Hc' b a); [symmetry in E; auto|tauto].
      * eapply Hx; eauto.
  - exists m'. split.
    + eapply Loop_mono; [| |exact HL].
      * intros l (i & _ & H). auto.
      * intros l (i & Hi & H). eauto.
    + intros e He. destruct (cell2_dec n e He) as (r & c & Hr & Hc & ->).
      destruct (Hv c Hc) as (mi & Hho & Hag). unfold rowsF. rewrite cell2_div, cell2_mod by auto.
      assert (E : x +! cell2 n r c = x +! c * n +! r) by (rewrite padd_padd; unfold cell2; f_equal; lia).
      rewrite E, Hag; [apply Hho; auto|]. left. apply inR_i. auto.
Qed.
End Rows.

(** ** the composition *)
Section Whole.
Variables (n h m : nat) (x y W Ws : ptr).
Hypothesis Hnh : n = 2 ^ h.
Hypothesis Hh1 : 1 <= h.
Hypothesis Hn : n = 2 * m.
Hypothesis H12 : n <= 2 ^ 12.
Notation N := (n * n).
Notation L := (six_L n).
Notation iv := (six_iv n).
Variables (inv : bool) (mode : smode) (m0 : mem) (X T Ts : nat -> C).
Hypothesis Hh : holds m0 x N X.
Hypothesis Hy : allocd m0 (inR y N).
Hypothesis HT : tab m0 W (Lt (4 * L)) T.
Hypothesis HTs : tab m0 Ws (NWs n) Ts.
Hypothesis Hxy : disjR x N y N.
Hypothesis HWx : disjT W (Lt (4 * L)) x N.
Hypothesis HWy : disjT W (Lt (4 * L)) y N.
Hypothesis HWsx : disjT Ws (NWs n) x N.
Hypothesis HWsy : disjT Ws (NWs n) y N.

Definition six_R (l : loc) : Prop := inT W (Lt (4 * L)) l \/ inT Ws (NWs n) l.

Lemma six_two : N = 2 ^ (2 * h) /\ n = 2 ^ (2 * h / 2).
Proof. rewrite half_2. split; auto. replace (2 * h) with (h + h) by lia. rewrite Nat.pow_add_r, <- Hnh. reflexivity. Qed.

Lemma keep_tab (V0 : ptr) (P : nat -> Prop) Z (ma mb : mem) : disjT V0 P x N -> disjT V0 P y N -> chg (xy x y N) ma mb -> tab ma V0 P Z -> tab mb V0 P Z.
Proof.
  intros H1 H2 [Hf _] Ht. eapply tab_frame; [exact Ht|]. intros l (i & Hi & ->). apply Hf.
  intros [(j & Hj & E)|(j & Hj & E)]; [eapply H1|eapply H2]; eauto.
Qed.
Lemma inR_x_xy l : inR x N l -> xy x y N l.
Proof. left. auto. Qed.

Theorem six_ok : let log_N := 2 * h in
  exists m', Step (six_part1 iv inv mode log_N x y W Ws) six_R (xy x y N) m0 m' /\
    Step (region_seq (six_part2 iv inv mode log_N x y W Ws)) six_R (xy x y N) m0 m' /\
    Exec (six_part2 iv inv mode log_N x y W Ws) (xy x y N) m0 m' /\
    holds m' x N (sixF inv N mode n T Ts X).
Proof.
  cbv zeta. destruct six_two as [EN En]. unfold six_part1, six_part2. cbv zeta. rewrite <- EN, <- En.
  assert (Hm : 0 < m) by (rewrite Hn in Hnh; destruct m; [pose proof (pow2_pos h); lia|lia]).
  assert (Rx : forall l : loc, no l -> six_R l) by (intros l []).
  (* 1: transpose *)
  destruct (tr_loop n m x Hn Hm H12 m0 X Hh) as (m1 & L1 & X1).
  assert (L1' : Loop L (six_tr iv n x) six_R (xy x y N) m0 m1) by (eapply Loop_mono; [exact Rx|exact inR_x_xy|exact L1]).
  pose proof (Loop_chg _ _ _ _ _ _ L1') as C1.
  (* 2: rows *)
  destruct (rows_loop n h x y Ws Hnh Hh1 inv m1 (trF n X) Ts X1 (chg_allocd _ _ _ _ C1 Hy) (keep_tab _ _ _ _ _ HWsx HWsy C1 HTs) Hxy HWsx HWsy) as (m2 & L2 & X2).
  assert (L2' : Loop n (six_row inv n x y Ws) six_R (xy x y N) m1 m2) by (eapply Loop_mono; [intros l Hl; right; exact Hl| |exact L2]; auto).
  pose proof (Loop_chg _ _ _ _ _ _ L2') as C2.
  assert (C02 : chg (xy x y N) m0 m2) by (eapply chg_trans; eauto).
  (* 3: twiddles *)
  destruct (mul_loop n m x Hn Hm H12 m2 _ X2 inv N mode W T (keep_tab _ _ _ _ _ HWx HWy C02 HT) HWx) as (m3 & L3 & X3).
  assert (L3' : Loop L (six_mul iv inv N mode n x W) six_R (xy x y N) m2 m3) by (eapply Loop_mono; [intros l Hl; left; exact Hl|exact inR_x_xy|exact L3]).
  pose proof (Loop_chg _ _ _ _ _ _ L3') as C3.
  assert (C03 : chg (xy x y N) m0 m3) by (eapply chg_trans; eauto).
  (* 4: rows *)
  destruct (rows_loop n h x y Ws Hnh Hh1 inv m3 _ Ts X3 (chg_allocd _ _ _ _ C03 Hy) (keep_tab _ _ _ _ _ HWsx HWsy C03 HTs) Hxy HWsx HWsy) as (m4 & L4 & X4).
  assert (L4' : Loop n (six_row inv n x y Ws) six_R (xy x y N) m3 m4) by (eapply Loop_mono; [intros l Hl; right; exact Hl| |exact L4]; auto).
  (* 5: transpose *)
  destruct (tr_loop n m x Hn Hm H12 m4 _ X4) as (m5 & L5 & X5).
  assert (L5' : Loop L (six_tr iv n x) six_R (xy x y N) m4 m5) by (eapply Loop_mono; [exact Rx|exact inR_x_xy|exact L5]).
  exists m5. split; [|split; [|split]].
  - repeat (eapply Step_seq; [eapply lp_seq; eassumption|]). eapply lp_seq; eassumption.
  - cbn [region_seq fst snd]. repeat (eapply Step_seq; [eapply lp_seq; eassumption|]). apply (Step_skip).
  - eapply (Exec_app [_] _ (xy x y N) (xy x y N)); [eapply lp_par; exact L1'| |auto|auto].
    eapply (Exec_app [_] _ (xy x y N) (xy x y N)); [eapply lp_par; exact L2'| |auto|auto].
    eapply (Exec_app [_] _ (xy x y N) (xy x y N)); [eapply lp_par; exact L3'| |auto|auto].
    eapply (Exec_app [_] _ (xy x y N) (xy x y N)); [eapply lp_par; exact L4'|eapply lp_par; exact L5'|auto|auto].
  - exact X5.
Qed.
End Whole.

End SixPart.
