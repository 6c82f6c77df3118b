(** * The eight-step transform (any arithmetic) *)

From Coq Require Import List Arith ZArith Bool Lia.
From Verif Require Import Scalar Mem MemFacts Omp OmpFacts Lanes Stage CoreStage Twid Object ObjectFacts Engine Steps MixedDrive ModelPow PowDrive PowKern PowRun ModelSix SixIndex SixRun SixPart.
Import ListNotations.

Section SixEight.
Context {Op : Ops}.
Notation mem := (mem C).
Notation prog := (prog C).

Lemma Splits_Loop {K : Type} n (body : nat -> prog unit) (D : K -> Prop) (t : K -> lane C) x N W NW y M F (m : mem) T X :
  Splits n body D t -> Disj D t -> Cov D t x N W NW y M F ->
  holds (V:=C) m x N X -> tab m W NW T -> allocd m (inR y M) ->
  exists m', Loop n body (fun l => inR x N l \/ inT W NW l) (inR y M) m m' /\ holds m' y M (F T X).
Proof.
  intros Hs Hd Hc Hx Ht Ha.
  destruct (Splits_Computes _ _ _ _ _ _ _ _ _ _ _ Hs Hd Hc m T X Hx Ht Ha) as (D1 & m1 & R1 & H1).
  destruct (Splits_RComputes _ _ _ _ _ _ _ _ _ _ _ Hs Hd Hc m T X Hx Ht Ha) as (O2 & m2 & R2 & _).
  exists m1. split; auto.
  assert (S1 : Step (for_ n body) (fun l => inR x N l \/ inT W NW l) (inR y M) m m1) by (split; auto).
  constructor; auto. split; [exact O2|]. split; [|eapply Step_chg; eauto].
  cbn. rewrite run_bind, R1. reflexivity.
Qed.

(** ** the radix-8 pass *)
Definition eight_fn (inv : bool) (N : nat) (mode : smode) : list C -> list C := if inv then eight_inv N mode else eight_fwd N mode.
Definition eightB (inv : bool) (N : nat) (mode : smode) (N1 : nat) (T X : nat -> C) (e : nat) : C :=
  nth (e / N1) (eight_fn inv N mode (T (e mod N1) :: map (fun j => X (e mod N1 + N1 * j)) (seq 0 8))) c0.

Lemma eight_fn_len inv N mode vs : length vs = 9 -> length (eight_fn inv N mode vs) = 8.
Proof.
  intros H. unfold eight_fn. do 9 (destruct vs as [|? vs]; [discriminate H|]); destruct vs; [|discriminate H].
  destruct inv; reflexivity.
Qed.

Section Bfly.
Variables (N h2 : nat) (x y W : ptr) (inv : bool) (mode : smode).
Notation N1 := (2 * h2).
Hypothesis HN : N = 8 * N1.
Hypothesis Hh2 : 0 < h2.

Lemma eight_N1 : N / 8 = N1.
Proof. rewrite HN, Nat.mul_comm. apply Nat.div_mul. lia. Qed.

Hypothesis Hxy : disjR x N y N.
Hypothesis HWy : disjT W (Lt N1) y N.

Lemma bfly_loop m T X : holds m x N X -> tab m W (Lt N1) T -> allocd m (inR y N) ->
  exists m', Loop h2 (fun i => eight_bfly inv N mode x y W (2 * i)) (fun l => inR x N l \/ inT W (Lt N1) l) (inR y N) m m' /\
    holds m' y N (eightB inv N mode N1 T X).
Proof.
  intros Hx Ht Ha.
  set (g := glane 8 8 (fun k i => k + N1 * i) (fun k i => k + N1 * i) (fun k => [k]) (fun _ => eight_fn inv N mode) x y W).
  assert (Htw : forall k e : nat, k < N1 -> In e [k] -> Lt N1 e) by (intros k e Hk [<-|[]]; exact Hk).
  assert (Hf : forall k (vs : list C), k < N1 -> length vs = length [k] + 8 -> length (eight_fn inv N mode vs) = 8) by (intros k vs _ H; apply eight_fn_len; auto).
  assert (Hri : forall k i, k < N1 -> i < 8 -> k + N1 * i < N) by (intros; rewrite HN; nia).
  assert (Hinj : forall k j k' j', k < N1 -> k' < N1 -> j < 8 -> j' < 8 -> k + N1 * j = k' + N1 * j' -> k = k' /\ j = j').
  { intros k j k' j' Hk Hk' _ _ E. eapply divmod_unique; eauto. }
  destruct (Splits_Loop h2 (fun i => eight_bfly inv N mode x y W (2 * i)) (fun k => k < N1) g x N W (Lt N1) y N
    (gfun 8 (fun k i => k + N1 * i) (fun k => [k]) (fun _ => eight_fn inv N mode) (fun i => (i mod N1, i / N1)) c0) m T X) as (m' & HL & Hh); auto.
  - apply (Splits_v h2 2 (fun i l => 2 * i + l)).
    + intros i Hi. unfold eight_bfly, vblock, eight_lane, g, glane. cbv zeta. rewrite eight_N1. cbn [rd wr fn map Datatypes.app]. unfold eight_fn. reflexivity.
    + intros k Hk. apply (glane_ok 8 8 _ _ _ _ x y W (fun k => k < N1)); auto.
    + intros i l i' l' _ Hl _ Hl' E. destruct (divmod_unique 2 l l' i i'); auto; lia.
    + intros i l Hi Hl. nia.
    + intros k Hk. destruct (eucl 2 k ltac:(lia)) as (l & i & Hl & ->). exists i, l. repeat split; [nia|auto|lia].
    + apply (glane_disj 8 8 _ _ _ _ x y W N N (Lt N1) (fun k => k < N1)); auto.
  - apply (glane_disj 8 8 _ _ _ _ x y W N N (Lt N1) (fun k => k < N1)); auto.
  - apply (glane_cov 8 8 _ _ _ _ x y W N N (Lt N1) (fun k => k < N1)); auto.
    intros i Hi. cbn [fst snd]. repeat split.
    + apply Nat.mod_upper_bound. lia.
    + apply Nat.div_lt_upper_bound; lia.
    + rewrite Nat.add_comm. symmetry. apply Nat.div_mod. lia.
  - exists m'. split; auto.
Qed.
End Bfly.

(** ** the final transposition *)
Definition eightT (N1 : nat) (X : nat -> C) (e : nat) : C := X (e / 8 + e mod 8 * N1).

Section Tr.
Variables (N h2 : nat) (x y : ptr).
Notation N1 := (2 * h2).
Hypothesis HN : N = 8 * N1.
Hypothesis Hh2 : 0 < h2.
Hypothesis Hxy : disjR x N y N.

Definition et_es (i q : nat) : list nat := [8 * (2 * i) + 2 * q + 0; 8 * (2 * i) + 2 * q + 0 + 1; 8 * (2 * i) + 2 * q + 8; 8 * (2 * i) + 2 * q + 8 + 1].
Definition et_all (i : nat) : list nat := flat_map (et_es i) (seq 0 4).
Lemma et_in i e : In e (et_all i) <-> 8 * (2 * i) <= e < 8 * (2 * i) + 16.
Proof.
  unfold et_all, et_es. cbn [flat_map seq Datatypes.app In]. split; [|intros H; assert (exists d, d < 16 /\ e = 8 * (2 * i) + d) as (d & Hd & ->) by (exists (e - 8 * (2 * i)); lia); clear H].
  - intros H. repeat destruct H as [<-|H]; try destruct H; lia.
  - do 16 (destruct d as [|d]; [lia|]). lia.
Qed.
Lemma eightT_at X p q : q < 8 -> eightT N1 X (q + 8 * p) = X (p + q * N1).
Proof. intros Hq. unfold eightT. rewrite div_lin, mod_lin by auto. reflexivity. Qed.

Lemma etr_step m X i q : holds m x N X -> allocd m (inR y N) -> i < h2 -> q < 4 ->
  exists mi, Step (block [x +! (2 * i + 2 * q * N1 + 0); x +! (2 * i + 2 * q * N1 + 0 + 1); x +! (2 * i + 2 * q * N1 + N1); x +! (2 * i + 2 * q * N1 + N1 + 1)]
      [y +! (8 * (2 * i) + 2 * q + 0); y +! (8 * (2 * i) + 2 * q + 0 + 1); y +! (8 * (2 * i) + 2 * q + 8); y +! (8 * (2 * i) + 2 * q + 8 + 1)]
      (fun v => match v with [a; A; b; B] => [a; b; A; B] | _ => [] end)) (inR x N) (fun l => In l (map (padd y) (et_es i q))) m mi /\
    forall e, In e (et_es i q) -> mi (y +! e) = Val (eightT N1 X e).
Proof.
  intros Hx Ha Hi Hq.
  destruct (block_step y [x +! (2 * i + 2 * q * N1 + 0); x +! (2 * i + 2 * q * N1 + 0 + 1); x +! (2 * i + 2 * q * N1 + N1); x +! (2 * i + 2 * q * N1 + N1 + 1)]
    (et_es i q) (fun v => match v with [a; A; b; B] => [a; b; A; B] | _ => [] end)
    [X (2 * i + 2 * q * N1 + 0); X (2 * i + 2 * q * N1 + 0 + 1); X (2 * i + 2 * q * N1 + N1); X (2 * i + 2 * q * N1 + N1 + 1)] (eightT N1 X) m) as (mi & HS & Hv).
  - unfold reads. cbn [map]. rewrite !Hx by nia. reflexivity.
  - unfold et_es. cbn [map].
    replace (8 * (2 * i) + 2 * q + 0) with (2 * q + 8 * (2 * i)) by lia.
    replace (2 * q + 8 * (2 * i) + 1) with (2 * q + 1 + 8 * (2 * i)) by lia.
    replace (8 * (2 * i) + 2 * q + 8) with (2 * q + 8 * (2 * i + 1)) by lia.
    replace (2 * q + 8 * (2 * i + 1) + 1) with (2 * q + 1 + 8 * (2 * i + 1)) by lia.
    rewrite !eightT_at by lia. leq.
  - intros e He. apply Ha, inR_i. assert (He' : In e (et_all i)) by (unfold et_all; apply in_flat_map; exists q; split; [apply in_seq; lia|auto]).
    apply et_in in He'. nia.
  - exists mi. split; [|auto]. eapply Step_mono; [| |exact HS]; auto.
    cbn [In]. intros l Hl. repeat destruct Hl as [<-|Hl]; try destruct Hl; apply inR_i; nia.
Qed.

Lemma etr_loop m X : holds m x N X -> allocd m (inR y N) ->
  exists m', Loop h2 (fun i => eight_tr N x y (2 * i)) (inR x N) (inR y N) m m' /\ holds m' y N (eightT N1 X).
Proof.
  intros Hx Ha.
  destruct (cells_loop h2 (fun i => eight_tr N x y (2 * i)) y et_all (fun _ => inR x N) (eightT N1 X) m) as (m' & HL & Hv).
  - intros i Hi. unfold eight_tr. cbv zeta. rewrite (eight_N1 N h2 HN Hh2).
    destruct (cells_loop 4 (fun q => block [x +! (2 * i + 2 * q * N1 + 0); x +! (2 * i + 2 * q * N1 + 0 + 1); x +! (2 * i + 2 * q * N1 + N1); x +! (2 * i + 2 * q * N1 + N1 + 1)]
      [y +! (8 * (2 * i) + 2 * q + 0); y +! (8 * (2 * i) + 2 * q + 0 + 1); y +! (8 * (2 * i) + 2 * q + 8); y +! (8 * (2 * i) + 2 * q + 8 + 1)]
      (fun v => match v with [a; A; b; B] => [a; b; A; B] | _ => [] end)) y (et_es i) (fun _ => inR x N) (eightT N1 X) m) as (mi & HLi & Hvi).
    + intros q Hq. apply etr_step; auto.
    + intros a b e Ha' Hb Hne Hin. split.
      * unfold et_es in *. cbn [In] in *. intros H. lia.
      * intros (c & Hc & E). apply (Hxy c e); [exact Hc| |symmetry; exact E]. unfold et_es in Hin. cbn [In] in Hin. nia.
    + exists mi. split.
      * eapply Step_mono; [| |apply (lp_seq _ _ _ _ _ _ HLi)].
        -- intros l (_ & _ & H). auto.
        -- intros l (a & Ha' & H). apply in_map_iff in H as (e & <- & He). apply in_map. unfold et_all. apply in_flat_map. exists a. split; auto. apply in_seq. lia.
      * intros e He. unfold et_all in He. apply in_flat_map in He as (q & Hq & He). apply in_seq in Hq. apply (Hvi q); auto. lia.
  - intros i j e Hi Hj Hne Hin. apply et_in in Hin. split.
    + rewrite et_in. lia.
    + intros (c & Hc & E). apply (Hxy c e); [exact Hc| |symmetry; exact E]. nia.
  - exists m'. split.
    + eapply Loop_mono; [| |exact HL].
      * intros l (_ & _ & H). auto.
      * intros l (i & Hi & H). apply in_map_iff in H as (e & <- & He). apply et_in in He. apply inR_i. nia.
    + intros e He. destruct (eucl 16 e ltac:(lia)) as (q & i & Hq & ->). apply (Hv i); [nia|]. apply et_in. lia.
Qed.
End Tr.

Lemma disjT_sub8 (W0 : ptr) (P : nat -> Prop) z M a k : disjT W0 P z M -> a + k <= M -> disjT W0 P (z +! a) k.
Proof. intros H Ha i j Hi Hj E. rewrite padd_padd in E. apply (H i (a + j)); auto. lia. Qed.

(** ** composition *)
Definition eightF (inv : bool) (N : nat) (mode : smode) (n : nat) (T Tm Ts X : nat -> C) : nat -> C :=
  let N1 := n * n in
  eightT N1 (rowsF N1 (sixF inv N1 scale_1 n Tm Ts) (eightB inv N mode N1 T X)).

Section Whole.
Variables (n h m N : nat) (x y W Wm Ws : ptr).
Hypothesis Hnh : n = 2 ^ h.
Hypothesis Hh1 : 1 <= h.
Hypothesis Hn : n = 2 * m.
Hypothesis H12 : n <= 2 ^ 12.
Notation N1 := (n * n).
Notation L := (six_L n).
Notation iv := (six_iv n).
Hypothesis HN : N = 8 * N1.
Variables (inv : bool) (mode : smode).
Hypothesis Hxy : disjR x N y N.
Hypothesis HWx : disjT W (Lt N1) x N.
Hypothesis HWy : disjT W (Lt N1) y N.
Hypothesis HWmx : disjT Wm (Lt (4 * L)) x N.
Hypothesis HWmy : disjT Wm (Lt (4 * L)) y N.
Hypothesis HWsx : disjT Ws (NWs n) x N.
Hypothesis HWsy : disjT Ws (NWs n) y N.

Notation R6 := (six_R n Wm Ws).

(** eight six-step transforms of consecutive parts of y, with the parts of x as work area *)
Lemma sixes m1 Tm Ts Y (body : nat -> prog unit) :
  holds m1 y N Y -> allocd m1 (inR x N) -> tab m1 Wm (Lt (4 * L)) Tm -> tab m1 Ws (NWs n) Ts ->
  (forall i, i < 8 -> body i = six_part1 iv inv scale_1 (2 * h) (y +! i * N1) (x +! i * N1) Wm Ws \/
     body i = region_seq (six_part2 iv inv scale_1 (2 * h) (y +! i * N1) (x +! i * N1) Wm Ws)) ->
  exists m2, Loop 8 body R6 (xy x y N) m1 m2 /\ holds m2 y N (rowsF N1 (sixF inv N1 scale_1 n Tm Ts) Y).
Proof.
  intros Hy Hx HTm HTs Hb.
  assert (Hpos : 0 < N1) by (assert (0 < n) by (rewrite Hnh; apply pow2_pos); nia).
  set (S := fun i l => xy (y +! i * N1) (x +! i * N1) N1 l).
  assert (HS : forall i l, i < 8 -> S i l -> xy x y N l).
  { intros i l Hi [(a & Ha & ->)|(a & Ha & ->)]; rewrite padd_padd; [right|left]; apply inR_i; nia. }
  destruct (loop_ok 8 body (fun _ => R6) S (fun i mi => holds mi (y +! i * N1) N1 (sixF inv N1 scale_1 n Tm Ts (fun j => Y (i * N1 + j)))) m1) as (m2 & HL & Hv).
  - intros i Hi.
    destruct (six_ok n h m (y +! i * N1) (x +! i * N1) Wm Ws Hnh Hh1 Hn H12 inv scale_1 m1 (fun j => Y (i * N1 + j)) Tm Ts) as (mi & S1 & S2 & _ & Hho); auto.
    + apply (holds_sub m1 y N); auto. nia.
    + intros l (a & Ha & ->). rewrite padd_padd. apply Hx. apply inR_i. nia.
    + apply disjR_sym. apply (disjR_sub x N y N); auto; nia.
    + apply (disjT_sub8 _ _ _ N); auto; nia.
    + apply (disjT_sub8 _ _ _ N); auto; nia.
    + apply (disjT_sub8 _ _ _ N); auto; nia.
    + apply (disjT_sub8 _ _ _ N); auto; nia.
    + exists mi. split; auto. destruct (Hb i Hi) as [-> | ->]; auto.
  - intros i j l Hi Hj Hne Hl. split.
    + pose proof (HS i l Hi Hl) as Hl'. intros [(a & Ha & ->)|(a & Ha & ->)]; destruct Hl' as [(b & Hb' & E)|(b & Hb' & E)].
      * eapply HWmx; eauto.
      * eapply HWmy; eauto.
      * eapply HWsx; eauto.
      * eapply HWsy; eauto.
    + intros Hl'.
      assert (Hz : forall z a b, z +! i * N1 +! a = z +! j * N1 +! b -> a < N1 -> b < N1 -> False).
      { intros z a b E Ha Hb'. rewrite !padd_padd in E. apply padd_inj in E. apply Hne.
        assert (E' : a + N1 * i = b + N1 * j) by lia. eapply divmod_unique in E' as [_ E']; eauto. }
      destruct Hl as [(a & Ha & ->)|(a & Ha & ->)], Hl' as [(b & Hb' & E)|(b & Hb' & E)].
      * eapply Hz; eauto.
      * rewrite !padd_padd in E. symmetry in E. eapply Hxy; [| |exact E]; nia.
      * rewrite !padd_padd in E. eapply Hxy; [| |exact E]; nia.
      * eapply Hz; eauto.
  - exists m2. split.
    + eapply Loop_mono; [| |exact HL].
      * intros l (_ & _ & H). auto.
      * intros l (i & Hi & H). eauto.
    + intros e He. destruct (eucl N1 e Hpos) as (r & c & Hr & ->). assert (Hc : c < 8) by nia.
      destruct (Hv c Hc) as (mi & Hho & Hag). unfold rowsF. rewrite div_lin, mod_lin by auto.
      assert (E : y +! (r + N1 * c) = y +! c * N1 +! r) by (rewrite padd_padd; f_equal; lia).
      rewrite E, Hag; [apply Hho; auto|]. left. apply inR_i. auto.
Qed.

Theorem eight_ok m0 T Tm Ts X : N = 2 ^ (2 * h + 3) -> holds m0 x N X -> allocd m0 (inR y N) ->
  tab m0 W (Lt N1) T -> tab m0 Wm (Lt (4 * L)) Tm -> tab m0 Ws (NWs n) Ts ->
  forall c, In c [eight_serial; eight_parallel; eight_large] ->
  exists m', CExec (c iv inv mode (2 * h + 3) x y W Wm Ws) (xy x y N) m0 m' /\ holds m' x N (eightF inv N mode n T Tm Ts X).
Proof.
  intros EN HX Hya HT HTm HTs c Hc.
  assert (Hm : 0 < m) by (rewrite Hn in Hnh; destruct m; [pose proof (pow2_pos h); lia|lia]).
  assert (exists h2, N1 = 2 * h2 /\ 0 < h2) as (h2 & Eh2 & Hh2) by (exists (m * n); rewrite Hn; split; nia).
  assert (Ediv : (N1 + 2 - 1) / 2 = h2) by (rewrite Eh2; apply div_up; lia).
  assert (EN1 : N / 8 = N1) by (rewrite HN, Nat.mul_comm; apply Nat.div_mul; lia).
  assert (HNh : N = 8 * (2 * h2)) by (rewrite HN, Eh2; reflexivity).
  assert (Hy_xy : forall l, inR y N l -> xy x y N l) by (right; auto).
  assert (Hx_xy : forall l, inR x N l -> xy x y N l) by (left; auto).
  (* radix-8 pass *)
  destruct (bfly_loop N h2 x y W inv mode HNh Hh2 Hxy ltac:(rewrite <- Eh2; auto) m0 T X HX ltac:(rewrite <- Eh2; auto) Hya) as (m1 & L1 & Y1).
  rewrite <- Eh2 in Y1.
  set (RR := fun l : loc => True).
  assert (L1' : Loop h2 (fun i => eight_bfly inv N mode x y W (2 * i)) RR (xy x y N) m0 m1) by (eapply Loop_mono; [| |exact L1]; unfold RR; auto).
  pose proof (Loop_chg _ _ _ _ _ _ L1') as C1.
  assert (Hxa : allocd m1 (inR x N)) by (eapply chg_allocd; [exact C1|]; eapply holds_allocd; eauto).
  assert (HTm1 : tab m1 Wm (Lt (4 * L)) Tm).
  { eapply tab_frame; [exact HTm|]. intros l (i & Hi & ->). apply C1. intros [(j & Hj & E)|(j & Hj & E)]; [eapply HWmx|eapply HWmy]; eauto. }
  assert (HTs1 : tab m1 Ws (NWs n) Ts).
  { eapply tab_frame; [exact HTs|]. intros l (i & Hi & ->). apply C1. intros [(j & Hj & E)|(j & Hj & E)]; [eapply HWsx|eapply HWsy]; eauto. }
  assert (Elog : 2 * h + 3 - 3 = 2 * h) by lia.
  (* final transposition, from any memory holding the rows *)
  assert (Htr : forall m2 Z, chg (xy x y N) m1 m2 -> holds m2 y N Z -> exists m3, Loop h2 (fun i => eight_tr N y x (2 * i)) RR (xy x y N) m2 m3 /\ holds m3 x N (eightT N1 Z)).
  { intros m2 Z C2 HZ. destruct (etr_loop N h2 y x HNh Hh2 (disjR_sym _ _ _ _ Hxy) m2 Z HZ (chg_allocd _ _ _ _ C2 Hxa)) as (m3 & L3 & H3).
    exists m3. rewrite Eh2. split; auto. eapply Loop_mono; [| |exact L3]; unfold RR; auto. }
  unfold eightF. destruct Hc as [<-|[<-|[<-|[]]]];
    unfold eight_serial, eight_parallel, eight_large, eight_part1, eight_part2; rewrite <- EN, EN1, Elog; unfold for_step, par_step; rewrite Ediv; unfold single.
  - destruct (sixes m1 Tm Ts _ (fun i => six_part1 iv inv scale_1 (2 * h) (y +! N1 * i) (x +! N1 * i) Wm Ws) Y1 Hxa HTm1 HTs1) as (m2 & L2 & Y2).
    { intros i Hi. left. rewrite (Nat.mul_comm N1 i). reflexivity. }
    destruct (Htr m2 _ (Loop_chg _ _ _ _ _ _ L2) Y2) as (m3 & L3 & X3).
    exists m3. split; auto. apply CExec_par. eapply Step_Exec.
    eapply Step_seq; [apply (lp_seq _ _ _ _ _ _ L1')|]. eapply Step_seq; [|apply (lp_seq _ _ _ _ _ _ L3)].
    eapply Step_mono; [| |apply (lp_seq _ _ _ _ _ _ L2)]; unfold RR; auto.
  - destruct (sixes m1 Tm Ts _ (fun i => six_part1 iv inv scale_1 (2 * h) (y +! i * N1) (x +! i * N1) Wm Ws) Y1 Hxa HTm1 HTs1) as (m2 & L2 & Y2).
    { intros i Hi. left. reflexivity. }
    destruct (Htr m2 _ (Loop_chg _ _ _ _ _ _ L2) Y2) as (m3 & L3 & X3).
    exists m3. split; auto. apply CExec_par.
    eapply (Exec_app [_] _ (xy x y N) (xy x y N)); [eapply lp_par; exact L1'| |auto|auto].
    eapply (Exec_app [_] _ (xy x y N) (xy x y N)); [eapply lp_par; exact L2|eapply lp_par; exact L3|auto|auto].
  - destruct (sixes m1 Tm Ts _ (fun i => region_seq (six_part2 iv inv scale_1 (2 * h) (y +! N1 * i) (x +! N1 * i) Wm Ws)) Y1 Hxa HTm1 HTs1) as (m2 & L2 & Y2).
    { intros i Hi. right. rewrite (Nat.mul_comm N1 i). reflexivity. }
    destruct (Htr m2 _ (Loop_chg _ _ _ _ _ _ L2) Y2) as (m3 & L3 & X3).
    exists m3. split; auto.
    eapply (CExec_app [_] _ (xy x y N) (xy x y N)); [apply CExec_par; eapply lp_par; exact L1'| |auto|auto].
    eapply (CExec_app [_] _ (xy x y N) (xy x y N)); [apply CExec_par; eapply Step_Exec; eapply lp_seq; exact L2|apply CExec_par; eapply lp_par; exact L3|auto|auto].
Qed.
End Whole.
End SixEight.
