(** * C47 for every length: two threads sharing one ComplexFFT object race on its work area *)

From Coq Require Import List Arith ZArith Bool Lia.
From Verif Require Import Scalar Mem MemFacts Omp OmpFacts Lanes Object Engine Twid ModelMixed ModelMixedClass ModelDif4 ModelDif8 ModelDif16 ModelDit4 ModelDit8 ModelDit16 ModelPow ModelSix ModelApi Stage
  History ApiFacts Footprint ComplexThms PropComplex Concurrent WritesIn PropConcurrent.
Import ListNotations.

Section Lead.
Context {Op : Ops}.
Notation leads := (@leads Op).
Notation prog := (prog (@C Op)).

(** a program that only loads, and returns a value of P *)
Fixpoint yields {A} (p : prog A) (P : A -> Prop) : Prop :=
  match p with Ret a => P a | Load _ k => forall v, yields (k v) P | _ => False end.
Lemma yields_bind {A B} (p : prog A) (f : A -> prog B) P Q : yields p P -> (forall a, P a -> yields (f a) Q) -> yields (bind p f) Q.
Proof. intros H Hf. induction p; cbn in *; try tauto; auto. Qed.
Lemma leads_yields {A} (p : prog A) (f : A -> prog unit) P l : yields p P -> (forall a, P a -> leads (f a) l) -> leads (bind p f) l.
Proof. intros H Hf. induction p; cbn in *; try tauto; auto. constructor. auto. Qed.
Lemma yields_loads rs : yields (loads rs) (fun vs => length vs = length rs).
Proof. induction rs as [|r rs IH]; cbn; auto. intros v. eapply yields_bind; [exact IH|]. intros vs H. cbn. auto. Qed.
Lemma yields_loadss L rs : yields (loadss (S L) rs) (fun vss => exists vs rest, vss = vs :: rest /\ length vs = length (rs 0)).
Proof.
  induction L as [|L IH].
  - cbn [loadss bind]. eapply yields_bind; [apply yields_loads|]. intros vs H. cbn. eauto.
  - cbn [loadss]. cbn [loadss] in IH. eapply yields_bind; [exact IH|]. intros vss (vs & rest & -> & H). eapply yields_bind; [apply yields_loads|]. intros vs' _. cbn. eauto.
Qed.
Definition starts (t : lane C) (l : loc) : Prop :=
  (exists r, wr t = l :: r) /\ forall vs, length vs = length (rd t) -> fn t vs <> [].
Lemma leads_stores l r vs : vs <> [] -> leads (stores (l :: r) vs) l.
Proof. destruct vs; [congruence|]. intros _. cbn. constructor. Qed.
Lemma leads_vblock L t l : starts (t 0) l -> leads (vblock (S L) t) l.
Proof.
  intros [[r E] H]. unfold vblock, blockL. eapply leads_yields; [apply yields_loadss|]. intros vss (vs & rest & -> & HL). cbn [mapi storess].
  apply leads_bind. rewrite E. apply leads_stores. auto.
Qed.
Lemma leads_step n st body l : 1 <= n -> 1 <= st -> leads (body 0) l -> leads (for_step n st body) l.
Proof. intros Hn Hs H. unfold for_step. apply leads_for; [|rewrite Nat.mul_0_r; exact H]. apply Nat.div_le_lower_bound; lia. Qed.
(** the first loop of a region *)
Definition pleads (ph : phase (V:=C)) (l : loc) : Prop := 1 <= fst ph /\ leads (snd ph 0) l.
Lemma pleads_step n st body l : 1 <= n -> 1 <= st -> leads (body 0) l -> pleads (par_step n st body) l.
Proof. intros Hn Hs H. unfold par_step. split; cbn [fst snd]; [apply Nat.div_le_lower_bound; lia|rewrite Nat.mul_0_r; exact H]. Qed.

Ltac hd t := match t with ?f _ => hd f | _ => t end.
Ltac fnok := let vs := fresh "vs" in let H := fresh "H" in intros vs H; cbn [rd fn length] in *;
  match goal with |- ?f ?v <> [] => let h := hd f in unfold h end;
  repeat (destruct vs as [|? vs]; [discriminate H|]); destruct vs; [discriminate|discriminate H].
Ltac strt := split; [eexists; match goal with |- wr ?t = _ => let h := hd t in unfold h end; cbv zeta; cbn [wr]; reflexivity
  | match goal with |- context [fn ?t] => let h := hd t in unfold h end; cbv zeta; cbn [rd fn]; fnok].

Lemma loc0 (y : ptr) a b : a = 0 -> b = 0 -> (y +! a) +! b = (y +! 0 : loc).
Proof. intros -> ->. unfold padd. cbn [fst snd]. rewrite !Nat.add_0_r. reflexivity. Qed.
Ltac at0 l := match goal with |- leads (vblock _ ?t) _ => idtac end.

(** ** first loops of the power-of-two engines *)
Section Kern.
Variables (x y W : ptr) (inv : bool).
Notation Y0 := (y +! 0 : loc).
Lemma dif4_lead n : 4 <= n -> leads (dif4_core inv W n 1 x y) Y0.
Proof.
  intros Hn. unfold dif4_core. cbn [Nat.eqb]. rewrite <- (loc0 y (4 * 0) 0) by lia. assert (1 <= n / 4) by (apply Nat.div_le_lower_bound; lia).
  destruct inv; cbv delta [dif4_invcore1 dif4_fwdcore1] beta zeta; (apply leads_step; [lia|lia|]); apply leads_vblock; cbv beta; rewrite (Nat.add_0_r 0); strt.
Qed.
Lemma dif8_lead n : 8 <= n -> leads (dif8_core inv W n 1 x y) Y0.
Proof.
  intros Hn. unfold dif8_core. cbn [Nat.eqb]. rewrite <- (loc0 y (8 * 0) 0) by lia. assert (1 <= n / 8) by (apply Nat.div_le_lower_bound; lia).
  destruct inv; cbv delta [dif8_invcore1 dif8_fwdcore1] beta zeta; (apply leads_step; [lia|lia|]); apply leads_vblock; cbv beta; rewrite (Nat.add_0_r 0); strt.
Qed.
Lemma dif16_lead n : 16 <= n -> leads (dif16_core inv W n 1 x y) Y0.
Proof.
  intros Hn. unfold dif16_core. cbn [Nat.eqb]. rewrite <- (loc0 y (16 * 0) 0) by lia. assert (1 <= n / 16) by (apply Nat.div_le_lower_bound; lia).
  destruct inv; cbv delta [dif16_invcore1 dif16_fwdcore1] beta zeta; (apply leads_step; [lia|lia|]); apply leads_vblock; cbv beta; rewrite (Nat.add_0_r 0); strt.
Qed.
Lemma dif8o_lead n : 8 <= n -> exists ph, dif8o_core inv W n 1 x y = [ph] /\ pleads ph Y0.
Proof.
  intros Hn. unfold dif8o_core. cbn [Nat.eqb]. rewrite <- (loc0 y (8 * 0) 0) by lia. assert (1 <= n / 8) by (apply Nat.div_le_lower_bound; lia).
  destruct inv; cbv delta [dif8o_invcore1 dif8o_fwdcore1] beta zeta; eexists; (split; [reflexivity|]); (apply pleads_step; [lia|lia|]); apply leads_vblock; cbv beta; rewrite (Nat.add_0_r 0); strt.
Qed.
(** the last butterflies of dit8, which run first, store to their first argument *)
Lemma dit8_end4_lead mode s eo : 2 <= s -> leads (dit8_end inv mode 4 s eo y x) Y0.
Proof.
  intros Hs. unfold dit8_end, dit4_end; cbn [Nat.eqb]. destruct (Nat.eqb_spec s 1) as [|_]; [lia|]. rewrite <- (loc0 y 0 (s * 0)) by lia.
  destruct inv; cbv delta [dit4_invend4 dit4_fwdend4] beta; (apply leads_step; [lia|lia|]); apply leads_vblock; cbv beta; rewrite (Nat.add_0_r 0); strt.
Qed.
Lemma dit8_end8_lead mode s eo : 2 <= s -> leads (dit8_end inv mode 8 s eo y x) Y0.
Proof.
  intros Hs. unfold dit8_end, dit4_end; cbn [Nat.eqb]. destruct (Nat.eqb_spec s 1) as [|_]; [lia|]. rewrite <- (loc0 y 0 (s * 0)) by lia.
  destruct inv; cbv delta [dit8_invend8 dit8_fwdend8] beta; (apply leads_step; [lia|lia|]); apply leads_vblock; cbv beta; rewrite (Nat.add_0_r 0); strt.
Qed.
Lemma dit8o_end4_lead mode s eo : 2 <= s -> exists ph, dit8o_end inv mode 4 s eo y x = [ph] /\ pleads ph Y0 /\ wr_phase (fun b => b = fst y) ph.
Proof.
  intros Hs. unfold dit8o_end, dit4o_end; cbn [Nat.eqb]. destruct (Nat.eqb_spec s 1) as [|_]; [lia|]. rewrite <- (loc0 y 0 (s * 0)) by lia.
  destruct inv; cbv delta [dit4o_invend4 dit4o_fwdend4] beta; eexists; (split; [reflexivity|]); split.
  1,3: (apply pleads_step; [lia|lia|]); apply leads_vblock; cbv beta; rewrite (Nat.add_0_r 0); strt.
  all: apply wr_par; intro; apply wr_vblock; intro; cbv beta; match goal with |- Forall _ (wr ?t) => let h := hd t in unfold h end; cbv zeta; cbn [wr]; repeat constructor.
Qed.
Lemma dit8o_end8_lead mode s eo : 2 <= s -> exists ph, dit8o_end inv mode 8 s eo y x = [ph] /\ pleads ph Y0 /\ wr_phase (fun b => b = fst y) ph.
Proof.
  intros Hs. unfold dit8o_end, dit4o_end; cbn [Nat.eqb]. destruct (Nat.eqb_spec s 1) as [|_]; [lia|]. rewrite <- (loc0 y 0 (s * 0)) by lia.
  destruct inv; cbv delta [dit8o_invend8 dit8o_fwdend8] beta; eexists; (split; [reflexivity|]); split.
  1,3: (apply pleads_step; [lia|lia|]); apply leads_vblock; cbv beta; rewrite (Nat.add_0_r 0); strt.
  all: apply wr_par; intro; apply wr_vblock; intro; cbv beta; match goal with |- Forall _ (wr ?t) => let h := hd t in unfold h end; cbv zeta; cbn [wr]; repeat constructor.
Qed.
Lemma dit8o_core_lead n s : 32 <= n -> 4 <= s -> exists ph, dit8o_core inv W n s y x = [ph] /\ pleads ph Y0.
Proof.
  intros Hn Hs. unfold dit8o_core. destruct (Nat.eqb_spec s 1) as [|_]; [lia|]. assert (1 <= n * s / 8 / 4) by (rewrite Nat.div_div by lia; apply Nat.div_le_lower_bound; nia).
  destruct inv; cbv delta [dit8o_invcore dit8o_fwdcore] beta zeta; eexists; (split; [reflexivity|]); (split; cbn [fst snd]; [assumption|]); apply leads_vblock; cbv beta.
  all: assert (E : s / 4 <> 0) by (intros E; apply Nat.div_small_iff in E; lia); rewrite (Nat.div_0_l (s / 4) E), (Nat.mod_0_l (s / 4) E); cbn [Nat.mul Nat.add].
  all: rewrite <- (loc0 y (0 + s * 0) 0) by lia; strt.
Qed.
Lemma eight_lead mode N : 8 <= N -> pleads (par_step (N / 8) 2 (eight_bfly inv N mode x y W)) Y0.
Proof.
  intros HN. apply pleads_step; [apply Nat.div_le_lower_bound; lia|lia|]. unfold eight_bfly. apply leads_vblock. cbv beta. rewrite (Nat.add_0_r 0). split.
  - eexists. unfold eight_lane. cbv zeta. cbn [wr map seq]. rewrite Nat.mul_0_r. reflexivity.
  - unfold eight_lane. cbv zeta. cbn [rd fn map seq length]. destruct inv; fnok.
Qed.
End Kern.

Section Rec.
Context {A : Type} (seq : A -> A -> A) (bad : A) (core : nat -> nat -> ptr -> ptr -> A) (fin : nat -> nat -> bool -> ptr -> ptr -> A).
Lemma dif_step r fuel n s eo x y : 1 <= fuel -> r < n -> dif_rec seq bad r core fin fuel n s eo x y = seq (core n s x y) (dif_rec seq bad r core fin (fuel - 1) (n / r) (r * s) (negb eo) y x).
Proof. intros Hf Hn. destruct fuel as [|f]; [lia|]. replace (S f - 1) with f by lia. cbn [dif_rec]. destruct (Nat.leb_spec n r); [lia|]. reflexivity. Qed.
Lemma dit_step fuel k s eo x y : 1 <= fuel -> 3 < k ->
  dit_rec seq bad 8 core fin fuel (2 ^ k) s eo x y = seq (dit_rec seq bad 8 core fin (fuel - 1) (2 ^ (k - 3)) (8 * s) (negb eo) y x) (core (2 ^ k) s x y).
Proof.
  intros Hf Hk. assert (E : 2 ^ k = 8 * 2 ^ (k - 3)) by (change 8 with (2 ^ 3); rewrite <- Nat.pow_add_r; f_equal; lia).
  pose proof (Nat.pow_lt_mono_r 2 0 (k - 3) ltac:(lia) ltac:(lia)) as H1. cbn [Nat.pow] in H1.
  destruct fuel as [|f]; [lia|]. replace (S f - 1) with f by lia. cbn [dit_rec]. destruct (Nat.leb_spec (2 ^ k) 8); [lia|].
  replace (2 ^ k / 8) with (2 ^ (k - 3)) by (rewrite E, Nat.mul_comm, Nat.div_mul by lia; reflexivity). reflexivity.
Qed.
Lemma dit_end fuel k s eo x y : 1 <= fuel -> k <= 3 -> dit_rec seq bad 8 core fin fuel (2 ^ k) s eo x y = fin (2 ^ k) s eo x y.
Proof.
  intros Hf Hk. destruct fuel as [|f]; [lia|]. cbn [dit_rec]. pose proof (Nat.pow_le_mono_r 2 k 3 ltac:(lia) Hk) as H. change (2 ^ 3) with 8 in H.
  destruct (Nat.leb_spec (2 ^ k) 8); [reflexivity|lia].
Qed.
End Rec.

Definition run_leads (S : nat -> Prop) (c : list (act C)) (l : loc) : Prop :=
  exists ph r c', c = Par (ph :: r) :: c' /\ (pleads ph l \/ (wr_phase S ph /\ exists ph2 r2, r = ph2 :: r2 /\ pleads ph2 l)).
Lemma single_leads p l : leads p l -> pleads (single p) l.
Proof. split; auto. Qed.
Lemma pow_big k : 4 <= k -> 16 <= 2 ^ k.
Proof. intros H. pose proof (Nat.pow_le_mono_r 2 4 k ltac:(lia) H) as E. change (2 ^ 4) with 16 in E. exact E. Qed.
Lemma dif_s_lead a inv mode n x y W : is_dit a = false -> radix a < n -> leads (fft_s a inv mode n 1 false x y W) (y +! 0).
Proof.
  intros Ha Hn. unfold fft_s. rewrite Ha. rewrite dif_step by lia. apply leads_bind.
  destruct a; try discriminate Ha; cbn [radix core] in *; [apply dif4_lead|apply dif8_lead|apply dif16_lead]; lia.
Qed.
Lemma rows_lead inv n x y Ws : 8 < n -> pleads (n, six_row inv n x y Ws) (y +! 0).
Proof.
  intros Hn. split; cbn [fst snd]; [lia|]. unfold six_row. cbv zeta. cbn [Nat.mul].
  pose proof (dif_s_lead DIF8 inv scale_1 n (x +! 0) (y +! 0) Ws eq_refl Hn) as H. rewrite (loc0 y 0 0) in H by lia. exact H.
Qed.
Lemma tr_writes iv n x L : wr_phase (fun b => b = fst x) (L, six_tr iv n x).
Proof.
  intros i. cbn [snd]. unfold six_tr, iv_get. destruct (iv i) as [[k p]|]; [|exact I]. cbv zeta. unfold transpose_kernel. destruct (k =? p); cbv zeta; apply wr_block; repeat constructor.
Qed.
Ltac gt2 := match goal with |- context [?a <? ?b] => idtac end.
Section Runs.
Variables (b : nat) (x y : ptr) (k : meth).
Notation Sx := (fun b => b = fst x).
Lemma pow_dif_leads a n : is_dit a = false -> n <= 24 -> radix a < 2 ^ n -> 2 ^ n < omp_min a -> run_leads Sx (pow_run a b n k x y) (y +! 0).
Proof.
  intros Ha Hn Hr Ho. unfold pow_run, pow_serial. cbv zeta. apply Nat.ltb_lt in Ho. rewrite Ho.
  assert (E : (1 <=? n) && (n <=? 24) = true). { apply andb_true_intro. split; apply Nat.leb_le; [|lia]. destruct n; [|lia]. destruct a; cbn in Hr; lia. }
  rewrite E. eexists; eexists; eexists. split; [reflexivity|]. left. apply single_leads. apply dif_s_lead; auto.
Qed.
Lemma pow_dif8o_leads n : 1 <= n <= 24 -> 8 < 2 ^ n -> omp_min DIF8 <= 2 ^ n -> run_leads Sx (pow_run DIF8 b n k x y) (y +! 0).
Proof.
  intros Hn Hr Ho. unfold pow_run, pow_parallel. cbv zeta. destruct (Nat.ltb_spec (2 ^ n) (omp_min DIF8)); [lia|].
  assert (E : (1 <=? n) && (n <=? 24) = true) by (apply andb_true_intro; split; apply Nat.leb_le; lia). rewrite E.
  unfold fft_o. cbn [is_dit radix coreo fino]. rewrite dif_step by lia. destruct (dif8o_lead x y (b, 0) (meth_inv k) (2 ^ n)) as (ph & Ep & Hp); [lia|]. rewrite Ep.
  eexists; eexists; eexists. split; [reflexivity|]. left. exact Hp.
Qed.
Ltac down := repeat (rewrite dit_step by lia; cbn [Nat.sub negb]).
Ltac pows := match goal with |- context [dit_rec _ _ _ _ _ (2 ^ ?n) (2 ^ ?n)] => let H := fresh in pose proof (pow_big n ltac:(lia)) as H; set (f := 2 ^ n) at 1; change (2 ^ n) with f in H; clearbody f end.
Lemma dit8_serial_leads n : n = 5 \/ n = 12 -> run_leads Sx (pow_run DIT8 b n k x y) (y +! 0).
Proof.
  intros Hn. unfold pow_run, pow_serial. cbv zeta. destruct (Nat.ltb_spec (2 ^ n) (omp_min DIT8)) as [_|Ho].
  2: { cbn [omp_min] in Ho. apply PowDrive.pow2_inj_le in Ho. lia. }
  destruct Hn as [-> | ->]; cbn [Nat.leb andb]; eexists; eexists; eexists; (split; [reflexivity|]); left; apply single_leads; unfold fft_s; cbn [is_dit radix core fin].
  - pows. down. rewrite dit_end by lia. apply leads_bind. change (2 ^ 2) with 4. apply dit8_end4_lead. lia.
  - pows. down. rewrite dit_end by lia. repeat apply leads_bind. change (2 ^ 3) with 8. apply dit8_end8_lead. lia.
Qed.
Lemma ge_omp a n q : omp_min a = 2 ^ q -> q <= n -> 2 ^ n <? omp_min a = false.
Proof. intros E H. apply Nat.ltb_ge. rewrite E. apply Nat.pow_le_mono_r; lia. Qed.
Lemma dit8_parallel_leads n : n = 14 \/ n = 15 \/ n = 17 -> run_leads Sx (pow_run DIT8 b n k x y) (y +! 0).
Proof.
  intros Hn. unfold pow_run, pow_parallel. cbv zeta. rewrite (ge_omp DIT8 n 13) by (lia || reflexivity).
  destruct Hn as [-> | [-> | ->]]; cbn [Nat.leb andb]; unfold fft_o; cbn [is_dit radix coreo fino].
  - pows. down. rewrite dit_end by lia. change (2 ^ 2) with 4.
    destruct (dit8o_end4_lead y x (meth_inv k) (meth_mode k) (8 * (8 * (8 * (8 * 1)))) false) as (ph & -> & _ & Hw); [lia|].
    destruct (dit8o_core_lead x y (b, 0) (meth_inv k) (2 ^ 5) (8 * (8 * (8 * 1)))) as (ph2 & -> & H2); [change (2 ^ 5) with 32; lia|lia|].
    eexists; eexists; eexists. split; [reflexivity|]. right. split; [exact Hw|]. eexists; eexists. split; [reflexivity|]. exact H2.
  - pows. down. rewrite dit_end by lia. change (2 ^ 3) with 8.
    destruct (dit8o_end8_lead y x (meth_inv k) (meth_mode k) (8 * (8 * (8 * (8 * 1)))) false) as (ph & -> & _ & Hw); [lia|].
    destruct (dit8o_core_lead x y (b, 0) (meth_inv k) (2 ^ 6) (8 * (8 * (8 * 1)))) as (ph2 & -> & H2); [change (2 ^ 6) with 64; lia|lia|].
    eexists; eexists; eexists. split; [reflexivity|]. right. split; [exact Hw|]. eexists; eexists. split; [reflexivity|]. exact H2.
  - pows. down. rewrite dit_end by lia. change (2 ^ 2) with 4.
    destruct (dit8o_end4_lead x y (meth_inv k) (meth_mode k) (8 * (8 * (8 * (8 * (8 * 1))))) true) as (ph & -> & H1 & _); [lia|].
    eexists; eexists; eexists. split; [reflexivity|]. left. exact H1.
Qed.
Lemma six_leads n : 16 <= n <= 24 -> run_leads Sx (six_run b n k x y) (y +! 0).
Proof.
  intros Hn. unfold six_run. cbv zeta. destruct (Nat.eqb_spec n 0); [lia|]. destruct (Nat.leb_spec n 5); [lia|]. destruct (Nat.ltb_spec 24 n); [lia|]. destruct (Nat.odd n) eqn:Ho.
  - unfold eight_fft. destruct (Nat.ltb_spec (2 ^ n) eight_omp1) as [Hlt|_]; [unfold eight_omp1 in Hlt; apply PowDrive.pow2_inj_lt in Hlt; lia|].
    pose proof (pow_big n ltac:(lia)) as H16. pose proof (eight_lead x y (b, 0) (meth_inv k) (meth_mode k) (2 ^ n) ltac:(lia)) as HL.
    destruct (2 ^ n <? eight_omp2); [unfold eight_parallel|unfold eight_large]; cbv zeta; eexists; eexists; eexists; (split; [reflexivity|]); left; exact HL.
  - unfold six_fft. destruct (Nat.ltb_spec (2 ^ n) six_omp) as [Hlt|_]; [unfold six_omp in Hlt; apply PowDrive.pow2_inj_lt in Hlt; lia|].
    unfold six_parallel, six_part2. cbv zeta. eexists; eexists; eexists. split; [reflexivity|]. right. split; [apply tr_writes|]. eexists; eexists. split; [reflexivity|].
    apply rows_lead. assert (H4 : 4 <= n / 2) by (apply Nat.div_le_lower_bound; lia). pose proof (pow_big (n / 2) H4). lia.
Qed.
End Runs.

(** ** every length *)
Lemma pad0 (a : nat) : ((a, 0) +! 0 : loc) = (a, 0).
Proof. reflexivity. Qed.
Lemma not_small N : N = 2 ^ Nat.log2 N -> forall c, N <> 2 ^ c -> Nat.log2 N <> c.
Proof. intros E c Hc Hl. apply Hc. rewrite <- Hl. exact E. Qed.
Lemma dif_ok b x y k a n q qo : is_dit a = false -> radix a = 2 ^ q -> omp_min a = 2 ^ qo -> q < n < qo /\ n <= 24 -> run_leads (fun c => c = fst x) (pow_run a b n k x y) (y +! 0).
Proof. intros H1 H2 H3 H4. apply pow_dif_leads; [exact H1|lia|rewrite H2; apply Nat.pow_lt_mono_r; lia|rewrite H3; apply Nat.pow_lt_mono_r; lia]. Qed.
Lemma dif8o_ok b x y k n : 11 <= n <= 24 -> run_leads (fun c => c = fst x) (pow_run DIF8 b n k x y) (y +! 0).
Proof.
  intros Hn. apply pow_dif8o_leads; [lia|pose proof (pow_big n ltac:(lia)); lia|]. change (omp_min DIF8) with (2 ^ 11). apply Nat.pow_le_mono_r; lia.
Qed.
Ltac peel k n := match k with O => idtac | S ?k' => destruct n as [|n]; [|peel k' n] end.
Lemma any_leads b N k x : valid_length N -> ~ In N [2; 3; 4; 5; 8] -> run_leads (fun c => c = fst x) (fft_run b N k x) (b + 3, 0).
Proof.
  intros HV HS. assert (H3 : N <> 3 /\ N <> 5 /\ N <> 2 ^ 1 /\ N <> 2 ^ 2 /\ N <> 2 ^ 3) by (repeat split; intros E; apply HS; rewrite E; cbn; auto 10).
  destruct H3 as (H3 & H5 & N2 & N4 & N8). assert (H2 : 2 <= N) by (destruct HV; auto).
  assert (HM : forall m, run_leads (fun c => c = fst x) (mixed_run b N m x (b + 3, 0)) (b + 3, 0)).
  { intros m. destruct (mixed_leads b N m x H2 N2 N4 N8 H3 H5) as (ph & r & c & E & H). exists ph, r, c. split; [exact E|]. left. exact H. }
  unfold fft_run, fft0_run, select. rewrite log_loop_spec by lia. cbn [Nat.add].
  destruct (Nat.eqb_spec N (2 ^ Nat.log2 N)) as [E|_]; cbn [negb]; [|apply HM].
  pose proof (not_small N E 1 N2) as L1. pose proof (not_small N E 2 N4) as L2. pose proof (not_small N E 3 N8) as L3.
  assert (L0 : Nat.log2 N <> 0) by (intros E0; rewrite E0 in E; cbn in E; lia).
  clear E. revert L0 L1 L2 L3. generalize (Nat.log2 N). intros n L0 L1 L2 L3.
  peel 25 n; try (exfalso; lia).
  all: cbv beta iota delta [engine_run FFT1 FFT2 FFT3 FFT4 FFT5 FFT6 FFT7 FFT8].
  all: try match goal with |- run_leads _ (mixed_run _ _ _ _ _) _ => apply HM end.
  all: match goal with
  | |- run_leads _ (six_run _ ?n _ _ _) _ => refine (six_leads b x (b + 3, 0) (fft0_meth k) n _); lia
  | |- run_leads _ (pow_run DIT8 _ 5 _ _ _) _ => refine (dit8_serial_leads b x (b + 3, 0) (fft0_meth k) 5 _); auto
  | |- run_leads _ (pow_run DIT8 _ 12 _ _ _) _ => refine (dit8_serial_leads b x (b + 3, 0) (fft0_meth k) 12 _); auto
  | |- run_leads _ (pow_run DIT8 _ ?n _ _ _) _ => refine (dit8_parallel_leads b x (b + 3, 0) (fft0_meth k) n _); auto
  | |- run_leads _ (pow_run DIF8 _ 13 _ _ _) _ => refine (dif8o_ok b x (b + 3, 0) (fft0_meth k) 13 _); lia
  | |- run_leads _ (pow_run DIF4 _ ?n _ _ _) _ => refine (dif_ok b x (b + 3, 0) (fft0_meth k) DIF4 n 2 13 eq_refl eq_refl eq_refl _); lia
  | |- run_leads _ (pow_run DIF8 _ ?n _ _ _) _ => refine (dif_ok b x (b + 3, 0) (fft0_meth k) DIF8 n 3 11 eq_refl eq_refl eq_refl _); lia
  | |- run_leads _ (pow_run DIF16 _ ?n _ _ _) _ => refine (dif_ok b x (b + 3, 0) (fft0_meth k) DIF16 n 4 12 eq_refl eq_refl eq_refl _); lia
  end.
Qed.

(** ** running one thread up to its first store to the work area *)
Lemma psteps_frame (R : loc -> Prop) n s s' : psteps (V:=C) n s s' ->
  (forall T m1, psteps n s (T, m1) -> forall i l, i < n -> next_access (T i) = Some (l, true) -> R l) -> forall l, ~ R l -> snd s' l = snd s l.
Proof.
  induction 1 as [s|s s1 s2 Hp IH Hst]; intros HW l Hl; [reflexivity|]. rewrite <- (IH HW l Hl). destruct Hst as [T m i p' m' Hi Ha]. cbn [snd].
  specialize (HW T m Hp i). destruct Ha as [l0 k m v Hv|l0 v k m Hv]; [reflexivity|]. unfold upd. destruct (loc_eqb l l0) eqn:El; [|reflexivity].
  exfalso. apply Hl. apply andb_prop in El as [E1 E2]. apply Nat.eqb_eq in E1, E2. replace l with l0 by (destruct l, l0; cbn in *; congruence). apply HW; auto.
Qed.
Lemma run_to (S : nat -> Prop) (A : loc -> Prop) c m m' l : run_leads S c l -> Outcome c m m' -> accesses_only c m A ->
  exists s m1, csteps (start c) m s m1 /\ about_to s l true /\ forall l', ~ (S (fst l') /\ A l') -> m1 l' = m l'.
Proof.
  intros (ph & r & c' & -> & [[H1 HL]|(HW & ph2 & r2 & -> & H2 & HL)]) HO HA.
  - destruct (call_leads ph r c' m m' l HO H1 HL) as (T & Hs & Ha). exists (Conf (Some (1, T)) r c'), m. auto.
  - destruct (oc_completes _ _ _ HO) as (m2 & He). inversion He as [| |r0 rest m0 m3 m4 Hr Hc]; subst. inversion Hr as [|ph0 rest0 m0 chunks T1 m1 m4 Hsc Hp Hf Hr2]; subst.
    assert (Reach : forall T m5, psteps (length chunks) (team ph chunks, m) (T, m5) -> call_reach (Par (ph :: ph2 :: r2) :: c') m (length chunks) T m5).
    { intros T m5 H. apply cr_here. eapply rr_here; eauto. }
    assert (Fr : forall l', ~ (S (fst l') /\ A l') -> m1 l' = m l').
    { apply (psteps_frame (fun l' => S (fst l') /\ A l') _ _ _ Hp). intros T m5 HT i l' Hi Hn. split.
      - assert (G : forall j, wr_in S (T j)). { refine (wr_psteps S _ _ _ HT _). intros j. apply wr_chunk. intros i'. apply HW. }
        specialize (G i). destruct (T i); try discriminate. injection Hn as ->. apply G.
      - apply (HA _ _ _ (Reach T m5 HT) i l' true Hi Hn). }
    set (ch := [seq 0 (fst ph2)]). set (T0 := team ph2 ch).
    assert (Hs2 : schedule ph2 ch). { unfold schedule, ch. cbn [concat]. rewrite app_nil_r. apply Permutation.Permutation_refl. }
    destruct (psteps_leads l (T0 0)) with (m := m1) (T0 := T0) as (T & HT & Ha).
    + unfold T0, team, ch. cbn [nth]. destruct (fst ph2) as [|n]; [lia|]. cbn [seq chunk_prog]. apply leads_bind. exact HL.
    + intros T2 HT2. apply (oc_defined _ _ _ HO 1 T2 m1); [|lia]. apply cr_here. eapply rr_later; [exact Hsc|exact Hp|exact Hf|]. apply (rr_here ph2 r2 m1 ch); auto.
    + reflexivity.
    + exists (Conf (Some (1, T)) r2 c'), m1. split; [|split; [left; exists 1, T, 0; repeat split; auto|exact Fr]].
      apply (csteps_team 1 r2 c' m T0 m1 T m1 HT). eapply cs_step; [|apply (c_fork ph2 r2 c' m1 ch); exact Hs2]. eapply cs_step; [|apply c_join; exact Hf].
      apply (csteps_team _ (ph2 :: r2) c' m _ m _ m1 Hp). eapply cs_step; [eapply cs_step; [apply cs_refl|apply c_par]|]. apply (c_fork ph (ph2 :: r2) c' m chunks). exact Hsc.
Qed.
End Lead.

(** two threads call methods of the same ComplexFFT object, each on its own array: for every admissible length other
    than 2, 3, 4, 5 and 8 they can race on the object's work area *)
Theorem C47_complex_object_not_shared : forall (Op : Ops) b N (k : nat -> meth) (x : nat -> ptr) (m : mem C) (X : nat -> nat -> C),
  valid_length N -> ~ In N [2; 3; 4; 5; 8] ->
  fft_history b (Some N) m -> (forall t, t < 2 -> ~ fft_own b (fst (x t)) /\ holds m (x t) N (X t)) -> disjR (x 0) N (x 1) N ->
  exists Q m1, gsteps 2 (fun t => start (fft_run b N (k t) (x t)), m) (Q, m1) /\ race_between (Q 0) (Q 1).
Proof.
  intros Op b N k x m X HV HS Hh HX HD.
  assert (G : forall t m0, t < 2 -> fft_history b (Some N) m0 -> holds m0 (x t) N (X t) ->
    exists s m1, csteps (start (fft_run b N (k t) (x t))) m0 s m1 /\ about_to s (b + 3, 0) true /\ forall l, ~ inR (x t) N l -> m1 l = m0 l).
  { intros t m0 Ht Hh0 HX0. destruct (HX t Ht) as [Hx _]. destruct (C07_memory_safety Op b N (k t) (x t) m0 (X t) HV Hh0 Hx HX0) as [(m' & HO & _) HA].
    destruct (run_to _ _ _ _ _ _ (any_leads b N (k t) (x t) HV HS) HO HA) as (s & m1 & H1 & H2 & H3). exists s, m1. split; [exact H1|]. split; [exact H2|].
    intros l Hl. apply H3. intros [E [H|[H|H]]]; [exact (Hl H)| |]; apply Hx; unfold fft_own; [apply inR_fst in H; cbn [fst] in H|]; rewrite <- E; lia. }
  destruct (HX 0 ltac:(lia)) as [Hx0 HX0]. destruct (HX 1 ltac:(lia)) as [Hx1 HX1].
  destruct (G 0 m ltac:(lia) Hh HX0) as (s0 & m0 & S0 & A0 & F0).
  destruct (G 1 m0 ltac:(lia)) as (s1 & m1 & S1 & A1 & F1).
  { eapply h_other; [exact Hh|]. intros l Hl. apply F0. intros Hi. apply inR_fst in Hi. rewrite Hi in Hl. contradiction. }
  { intros i Hi. rewrite F0; [apply HX1; exact Hi|]. intros (j & Hj & E). exact (HD j i Hj Hi (eq_sym E)). }
  set (Q := fun t => start (fft_run b N (k t) (x t))).
  destruct (lift 2 Q 0 _ m0 ltac:(lia) _ m S0) as (Q1 & G1 & F1' & O1); [reflexivity|].
  destruct (lift 2 Q1 1 _ m1 ltac:(lia) _ m0 S1) as (Q2 & G2 & F2 & O2); [apply O1; lia|].
  exists Q2, m1. split; [eapply gsteps_trans; eauto|]. exists (b + 3, 0), true, true. rewrite F2, (O2 0 ltac:(lia)), F1'. auto.
Qed.
Print Assumptions C47_complex_object_not_shared.

(** ** the five lengths whose transforms work in place *)
Section Small.
Context {Op : Ops}.
Lemma wr_serial (Sx : nat -> Prop) a b n k x y : 2 ^ n <? omp_min a = true -> (1 <=? n) && (n <=? 24) = true -> wr_in (V:=C) Sx (fft_s a (meth_inv k) (meth_mode k) (2 ^ n) 1 false x y (b, 0)) ->
  Forall (wr_act (V:=C) Sx) (pow_run a b n k x y).
Proof. intros E1 E2 H. unfold pow_run. rewrite E1. unfold pow_serial. cbv zeta. rewrite E2. constructor; [|constructor]. constructor; [|constructor]. apply wr_single. exact H. Qed.
Lemma lt_omp a n q : omp_min a = 2 ^ q -> n < q -> 2 ^ n <? omp_min a = true.
Proof. intros E H. apply Nat.ltb_lt. rewrite E. apply Nat.pow_lt_mono_r; lia. Qed.
Lemma wr_coef N k x : wr_in (V:=C) (fun c => c = fst x) (match mixed_coef N k with Some c => for_ N (scale_body c x) | None => skip end).
Proof. destruct (mixed_coef N k); [|exact I]. apply wr_for. intros i. unfold scale_body. apply wr_bind; [intro; exact I|]. intros v. cbn. auto. Qed.
Ltac ends := unfold fft_s, dit4_end, dif4_end, dit8_end, dif8_end; cbn [is_dit radix dit_rec dif_rec Nat.leb core fin Nat.eqb Nat.pow Nat.mul Nat.add];
  unfold fft_s, dit4_end, dif4_end, dit8_end, dif8_end; cbn [Nat.eqb].
Notation small N := (forall b k x, Forall (wr_act (V:=C) (fun c => c = fst x)) (fft_run b N k x)).
Lemma small_pow a N n q : select N = Some (EPow a n) -> omp_min a = 2 ^ q -> n < q -> (1 <=? n) && (n <=? 24) = true ->
  (forall inv mode x y W, wr_in (V:=C) (fun c => c = fst x) (fft_s a inv mode (2 ^ n) 1 false x y W)) -> small N.
Proof. intros E E1 H1 E2 H b k x. unfold fft_run, fft0_run. rewrite E. unfold engine_run. apply wr_serial; [apply (lt_omp _ _ q); auto|exact E2|apply H]. Qed.
Lemma small_mixed N : select N = Some (EMixed N) -> N < mixed_omp ->
  (forall x y W, wr_in (V:=C) (fun c => c = fst x) (invfft (S N) N 1 false x y W) /\ wr_in (V:=C) (fun c => c = fst x) (fwdfft (S N) N 1 false x y W)) -> small N.
Proof.
  intros E Hlt H b k x. unfold fft_run, fft0_run. rewrite E. unfold engine_run, mixed_run. apply Nat.ltb_lt in Hlt. rewrite Hlt. unfold mixed_serial. cbv zeta.
  constructor; [|constructor]. constructor; [|constructor]. apply wr_single. apply wr_bind.
  - destruct (H x (b + 3, 0) (b, 0)). destruct (meth_inv (fft0_meth k)); assumption.
  - intros _. apply wr_coef.
Qed.
Lemma small_2 : small 2.
Proof.
  apply (small_pow DIT4 2 1 13); [reflexivity|reflexivity|lia|reflexivity|]. intros inv mode x y W. ends. destruct inv; apply wr_lblock; repeat constructor.
Qed.
Lemma small_4 : small 4.
Proof.
  apply (small_pow DIF4 4 2 13); [reflexivity|reflexivity|lia|reflexivity|]. intros inv mode x y W. ends. destruct inv; apply wr_lblock; repeat constructor.
Qed.
Lemma small_8 : small 8.
Proof.
  apply (small_pow DIT8 8 3 13); [reflexivity|reflexivity|lia|reflexivity|]. intros inv mode x y W. ends. destruct inv; apply wr_lblock; repeat constructor.
Qed.
Lemma lt_mixed N q : N <= 2 ^ q -> q < 15 -> N < mixed_omp.
Proof. intros H Hq. unfold mixed_omp. eapply Nat.le_lt_trans; [exact H|]. apply Nat.pow_lt_mono_r; lia. Qed.
Lemma small_3 : small 3.
Proof.
  apply small_mixed; [reflexivity|apply (lt_mixed _ 2); cbn; lia|]. intros x y W. generalize 3 at 1 3. intros f. cbn [fwdfft invfft]. cbv zeta.
  change (3 * 1 <? 2) with false. change (3 mod 8 =? 0) with false. change (3 mod 4 =? 0) with false. change (3 mod 2 =? 0) with false. change (3 mod 5 =? 0) with false. change (3 mod 3 =? 0) with true.
  change (3 =? 3) with true. cbv iota. unfold invend3, fwdend3. cbv zeta. split; apply wr_for; intro; apply wr_lblock; unfold lane_end; cbn [wr map seq]; repeat constructor.
Qed.
Lemma small_5 : small 5.
Proof.
  apply small_mixed; [reflexivity|apply (lt_mixed _ 3); cbn; lia|]. intros x y W. generalize 5 at 1 3. intros f. cbn [fwdfft invfft]. cbv zeta.
  change (5 * 1 <? 2) with false. change (5 mod 8 =? 0) with false. change (5 mod 4 =? 0) with false. change (5 mod 2 =? 0) with false. change (5 mod 5 =? 0) with true.
  change (5 =? 5) with true. cbv iota. unfold invend5, fwdend5. cbv zeta. split; apply wr_for; intro; apply wr_lblock; unfold lane_end; cbn [wr map seq]; repeat constructor.
Qed.
Lemma small_writes b N k x : In N [2; 3; 4; 5; 8] -> Forall (wr_act (V:=C) (fun c => c = fst x)) (fft_run b N k x).
Proof. intros H. cbn [In] in H. destruct H as [<- | [<- | [<- | [<- | [<- | []]]]]]; [apply small_2|apply small_3|apply small_4|apply small_5|apply small_8]. Qed.
End Small.

(** for the lengths 2, 3, 4, 5 and 8 any number of threads may use one ComplexFFT object at once, on disjoint arrays *)
Theorem C47_tiny_object_shared : forall (Op : Ops) n b N (k : nat -> meth) (x : nat -> ptr) (m : mem C) (X : nat -> nat -> C),
  In N [2; 3; 4; 5; 8] -> fft_history b (Some N) m ->
  (forall t, t < n -> ~ fft_own b (fst (x t)) /\ holds m (x t) N (X t)) ->
  (forall t u l, t < n -> u < n -> t <> u -> inR (x t) N l -> ~ inR (x u) N l) ->
  let init := fun t => start (fft_run b N (k t) (x t)) in
  (exists Q m1, gsteps n (init, m) (Q, m1) /\ forall t, t < n -> done (Q t)) /\
  forall Q m1, gsteps n (init, m) (Q, m1) ->
    (forall t, t < n -> ~ undefined (Q t) m1) /\
    (forall t u, t < n -> u < n -> t <> u -> ~ race_between (Q t) (Q u)) /\
    (forall t, t < n -> done (Q t) -> forall m', call_exec (fft_run b N (k t) (x t)) m m' -> forall i, i < N -> m1 (x t +! i) = m' (x t +! i)) /\
    (forall l, fft_own b (fst l) -> m1 l = m l).
Proof.
  intros Op n b N k x m X HS Hh HX HD init.
  assert (HV : valid_length N).
  { assert (H : 2 <= N <= 8) by (cbn in HS; lia). split; [lia|]. split; [lia|]. intros p [Hp _] Hd. apply Nat.divide_pos_le in Hd; [|lia]. apply Z.leb_le. unfold INT_MAX. nia. }
  assert (Hc : forall t, t < n -> (exists m', Outcome (fft_run b N (k t) (x t)) m m') /\
    accesses_only (fft_run b N (k t) (x t)) m (fun l => inR (x t) N l \/ fft_own b (fst l)) /\ writes_only (fft_run b N (k t) (x t)) m (inR (x t) N)).
  { intros t Ht. destruct (HX t Ht) as [Hx Hv]. destruct (C07_memory_safety Op b N (k t) (x t) m (X t) HV Hh Hx Hv) as [(m' & HO & _) HA].
    assert (HA' : accesses_only (fft_run b N (k t) (x t)) m (fun l => inR (x t) N l \/ fft_own b (fst l))).
    { eapply accesses_mono; [|exact HA]. intros l [H|[H|H]]; [left; exact H|right|right; unfold fft_own; lia]. apply inR_fst in H. cbn [fst] in H. unfold fft_own. lia. }
    split; [eauto|]. split; [exact HA'|].
    eapply writes_mono; [|apply (writes_meet _ _ _ _ (wr_writes _ _ m (small_writes b N (k t) (x t) HS)) HA')].
    cbn beta. intros l [E [H|H]]; [exact H|]. exfalso. rewrite E in H. auto. }
  assert (Hm : exists m' : nat -> mem C, forall t, t < n -> Outcome (fft_run b N (k t) (x t)) m (m' t)).
  { clear HD HX. subst init. induction n as [|n IH]; [exists (fun _ => m); lia|]. destruct IH as [m' Hm']; [intros; apply Hc; lia|].
    destruct (Hc n ltac:(lia)) as ((mn & HO) & _). exists (fun t => if t =? n then mn else m' t). intros t Ht. destruct (Nat.eqb_spec t n) as [->|]; auto. apply Hm'. lia. }
  destruct Hm as [m' HO].
  pose proof (fun t Ht => proj1 (proj2 (Hc t Ht))) as HA. pose proof (fun t Ht => proj2 (proj2 (Hc t Ht))) as HW.
  assert (HN : forall t, t < n -> allocates_only (fft_run b N (k t) (x t)) (inR (x t) N)) by (intros t _; apply par_alloc; apply fft0_run_par).
  assert (HWA : forall t l, t < n -> inR (x t) N l -> inR (x t) N l \/ fft_own b (fst l)) by auto.
  assert (HD' : forall t u l, t < n -> u < n -> t <> u -> inR (x t) N l -> inR (x u) N l \/ fft_own b (fst l) -> False).
  { intros t u l Ht Hu Htu H [H'|H']; [exact (HD t u l Ht Hu Htu H H')|]. apply inR_fst in H. rewrite H in H'. destruct (HX t Ht) as [Hx _]. auto. }
  split; [exact (concurrent_completes n _ _ _ m m' HO HA HW HN HWA HD')|].
  intros Q m1 H. destruct (concurrent n _ _ _ m m' HO HA HW HN HWA HD' Q m1 H) as (H1 & _ & H3 & _ & _ & H6 & H7).
  split; [exact H1|]. split; [exact H3|]. split.
  - intros t Ht Hd m2 He i Hi. rewrite (H6 t Ht Hd) by (left; exists i; auto). symmetry. apply (oc_unique _ _ _ (HO t Ht)). exact He.
  - intros l Hl. apply H7. intros t Ht Hin. destruct (HX t Ht) as [Hx _]. apply inR_fst in Hin. rewrite Hin in Hl. auto.
Qed.
Print Assumptions C47_tiny_object_shared.

(** the hypotheses are met: two threads with arrays of any admissible length *)
Theorem C47_hypotheses_met : forall (Op : Ops) b N (X : nat -> nat -> C), valid_length N -> let x := fun t => (b + 4 + t, 0) in
  exists m : mem C, fft_history b (Some N) m /\ (forall t, t < 2 -> ~ fft_own b (fst (x t)) /\ holds m (x t) N (X t)) /\ disjR (x 0) N (x 1) N.
Proof.
  intros Op b N X HV x. destruct (C07_setup_safety Op b N None (fun _ => Free) (h_start _ _ _ _ _)) as [(m' & HO & _) _]. destruct (oc_completes _ _ _ HO) as (m1 & He).
  exists (fun l => if fst l <=? b + 3 then m1 l else Val (X (fst l - (b + 4)) (snd l))). split; [|split].
  - eapply h_other; [eapply fft_h_setup; [apply h_start|exact He]|]. intros l Hl. unfold fft_own in Hl. destruct (Nat.leb_spec (fst l) (b + 3)); [reflexivity|lia].
  - intros t Ht. split; [unfold fft_own, x; cbn [fst]; lia|]. intros i Hi. unfold x. cbn [padd fst snd]. destruct (Nat.leb_spec (b + 4 + t) (b + 3)); [lia|]. f_equal. f_equal; lia.
  - intros i j _ _ E. apply (f_equal fst) in E. cbn [padd fst x] in E. lia.
Qed.
