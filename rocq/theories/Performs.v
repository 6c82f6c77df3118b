(** * The accesses a program performs

    [does w l p]: every run of p that ends without undefined behaviour loads (w = false) or stores (w = true) the
    cell l at some point, whatever values its loads return. *)

From Coq Require Import List Arith ZArith Bool Lia.
From Verif Require Import Scalar Mem Omp Lanes Object Engine Twid ModelMixed ModelMixedClass ModelDif4 ModelDif8 ModelDif16 ModelDit4 ModelDit8 ModelDit16 ModelPow ModelSix ModelApi ModelReal ModelBluestein Vec ModelVec ModelVecApi.
Import ListNotations.

Section Does.
Context {V : Type}.
Notation prog := (prog V).
Fixpoint does {A} (w : bool) (l : loc) (p : prog A) : Prop :=
  match p with
  | Ret _ => False
  | UB => True
  | Load l' k => (w = false /\ l' = l) \/ forall v, does w l (k v)
  | Store l' _ k => (w = true /\ l' = l) \/ does w l k
  | Alloc _ _ k => does w l k
  end.
(** both halves of a 32-byte access, as two loads or as two stores *)
Definition does2 {A} (v : loc * loc) (p : prog A) : Prop := exists w, does w (fst v) p /\ does w (snd v) p.

Fixpoint rets {A} (P : A -> Prop) (p : prog A) : Prop :=
  match p with
  | Ret a => P a
  | UB => True
  | Load _ k => forall v, rets P (k v)
  | Store _ _ k => rets P k
  | Alloc _ _ k => rets P k
  end.
Lemma rets_bind {A B} (P : A -> Prop) (Q : B -> Prop) (p : prog A) (f : A -> prog B) : rets P p -> (forall a, P a -> rets Q (f a)) -> rets Q (bind p f).
Proof. intros H Hf. induction p; cbn in *; auto. Qed.
Lemma rets_any {A} (p : prog A) : rets (fun _ => True) p.
Proof. induction p; cbn; auto. Qed.
Lemma does_l {A B} w l (p : prog A) (f : A -> prog B) : does w l p -> does w l (bind p f).
Proof.
  induction p as [a| |l' k IH|l' v k IH|b n k IH]; cbn; intros H; auto; try contradiction.
  - destruct H as [H|H]; [left; exact H|right; intros v; auto].
  - destruct H as [H|H]; [left; exact H|right; auto].
Qed.
Lemma does_r {A B} w l (P : A -> Prop) (p : prog A) (f : A -> prog B) : rets P p -> (forall a, P a -> does w l (f a)) -> does w l (bind p f).
Proof. intros H Hf. induction p; cbn in *; auto. Qed.
Lemma does2_l {A B} v (p : prog A) (f : A -> prog B) : does2 v p -> does2 v (bind p f).
Proof. intros (w & H1 & H2). exists w. split; apply does_l; auto. Qed.
Lemma does2_r {A B} v (p : prog A) (q : prog B) : does2 v q -> does2 v (p ;;; q).
Proof. intros (w & H1 & H2). exists w. split; apply (does_r _ _ _ _ _ (rets_any p)); auto. Qed.
Lemma does2_for v n (body : nat -> prog unit) i : i < n -> does2 v (body i) -> does2 v (for_ n body).
Proof.
  intros Hi H. induction n as [|n IH]; [lia|]. cbn [for_]. destruct (Nat.eq_dec i n) as [->|Hne].
  - apply does2_r. exact H.
  - apply does2_l, IH. lia.
Qed.
Lemma does_loads l rs : In l rs -> does false l (loads (V:=V) rs).
Proof.
  induction rs as [|r rs IH]; [intros []|]. intros [->|H]; cbn; [left; auto|right]. intros v. apply does_l. auto.
Qed.
Lemma does_stores l ws vs : In l ws -> does true l (stores (V:=V) ws vs).
Proof.
  revert vs. induction ws as [|r ws IH]; intros vs; [intros []|]. destruct vs as [|v vs]; [intros _; exact I|].
  intros [->|H]; cbn; [left; auto|right; auto].
Qed.
Lemma does_rd l rs ws f : In l rs -> does false l (block (V:=V) rs ws f).
Proof. intros H. apply does_l, does_loads, H. Qed.
Lemma does_wr l rs ws f : In l ws -> does true l (block (V:=V) rs ws f).
Proof. intros H. apply (does_r _ _ _ _ _ (rets_any _)). intros vs _. apply does_stores, H. Qed.
Lemma rets_loadss L rs : rets (fun vss => length vss = L) (loadss (V:=V) L rs).
Proof.
  induction L as [|L IH]; cbn; [reflexivity|]. apply (rets_bind _ _ _ _ IH). intros vss Hl.
  apply (rets_bind _ _ _ _ (rets_any _)). intros vs _. cbn. rewrite app_length. cbn. lia.
Qed.
Lemma does_loadss l L rs i : i < L -> In l (rs i) -> does false l (loadss (V:=V) L rs).
Proof.
  intros Hi H. induction L as [|L IH]; [lia|]. cbn. destruct (Nat.eq_dec i L) as [->|Hne].
  - apply (does_r _ _ _ _ _ (rets_any _)). intros vss _. apply does_l, does_loads, H.
  - apply does_l, IH. lia.
Qed.
Lemma does_storess l ws vss : forall l0 i, l0 <= i < l0 + length vss -> In l (ws i) -> does true l (storess (V:=V) ws l0 vss).
Proof.
  induction vss as [|vs vss IH]; intros l0 i Hi H; cbn in *; [lia|]. destruct (Nat.eq_dec i l0) as [->|Hne].
  - apply does_l, does_stores, H.
  - apply (does_r _ _ _ _ _ (rets_any _)). intros _ _. apply (IH (S l0) i); auto. lia.
Qed.
Lemma mapi_length {A B} (f : nat -> A -> B) l : forall i, length (mapi f i l) = length l.
Proof. induction l; intros i; cbn; auto. Qed.
Lemma does_rdL l L rs ws f i : i < L -> In l (rs i) -> does false l (blockL (V:=V) L rs ws f).
Proof. intros Hi H. apply does_l. apply (does_loadss l L rs i); auto. Qed.
Lemma does_wrL l L rs ws f i : i < L -> In l (ws i) -> does true l (blockL (V:=V) L rs ws f).
Proof.
  intros Hi H. apply (does_r _ _ _ _ _ (rets_loadss L rs)). intros vss Hl. apply (does_storess l ws _ 0 i); auto.
  rewrite mapi_length, Hl. lia.
Qed.

(** regions and calls: some iteration of some work-sharing loop *)
Definition region_does2 (v : loc * loc) (r : list (phase (V:=V))) : Prop :=
  exists ph i, In ph r /\ i < fst ph /\ does2 v (snd ph i).
Definition call_does2 (v : loc * loc) (c : list (act V)) : Prop := exists r, In (Par r) c /\ region_does2 v r.
Lemma rd2_l v r r' : region_does2 v r -> region_does2 v (r ++ r').
Proof. intros (ph & i & H & Hi & Hd). exists ph, i. split; auto. apply in_or_app. auto. Qed.
Lemma rd2_r v r r' : region_does2 v r' -> region_does2 v (r ++ r').
Proof. intros (ph & i & H & Hi & Hd). exists ph, i. split; auto. apply in_or_app. auto. Qed.
Lemma cd2_l v c c' : call_does2 v c -> call_does2 v (c ++ c').
Proof. intros (r & H & Hr). exists r. split; auto. apply in_or_app. auto. Qed.
Lemma cd2_r v c c' : call_does2 v c' -> call_does2 v (c ++ c').
Proof. intros (r & H & Hr). exists r. split; auto. apply in_or_app. auto. Qed.
Lemma cd2_par v r : region_does2 v r -> call_does2 v [Par r].
Proof. intros H. exists r. split; [left; reflexivity|exact H]. Qed.
Lemma rd2_phase v n body i : i < n -> does2 v (body i) -> region_does2 v [(n, body)].
Proof. intros Hi H. exists (n, body), i. split; [left; reflexivity|]. auto. Qed.
End Does.

(** ** lists of 32-byte accesses *)
Lemma in_pairs v l : In v (pairs l) -> In (fst v) l /\ In (snd v) l.
Proof.
  enough (H : forall n l, length l <= n -> In v (pairs l) -> In (fst v) l /\ In (snd v) l) by (apply (H (length l)); auto).
  clear l. intros n. induction n as [|n IH]; intros [|a [|b l]] Hl H; cbn in Hl, H; try contradiction; try lia.
  destruct H as [<- | H]; cbn; auto. destruct (IH l) as [H1 H2]; auto; lia.
Qed.
Lemma in_combine_both v (l l' : list ptr) : In v (combine l l') -> In (fst v) l /\ In (snd v) l'.
Proof. destruct v as [a b]. intros H. split; [apply in_combine_l in H|apply in_combine_r in H]; exact H. Qed.
Lemma in_group m L t v : In v (group m L t) -> exists i j, i < L /\ j < L /\ In (fst v) (t i) /\ In (snd v) (t j).
Proof.
  destruct m; cbn [group]; [intros []| |]; intros H; apply in_flat_map in H; destruct H as (h & Hh & H); apply in_seq in Hh.
  - apply in_combine_both in H. exists (2 * h), (2 * h + 1).
    pose proof (Nat.div_mod L 2 ltac:(lia)) as E. split; [|split]; [lia|lia|exact H].
  - apply in_pairs in H. exists h, h. split; [|split]; [lia|lia|exact H].
Qed.

Lemma in_firstn {A} n (l : list A) a : In a (firstn n l) -> In a l.
Proof. intros H. rewrite <- (firstn_skipn n l). apply in_or_app. auto. Qed.
Lemma in_skipn {A} n (l : list A) a : In a (skipn n l) -> In a l.
Proof. intros H. rewrite <- (firstn_skipn n l). apply in_or_app. auto. Qed.

Section Lane.
Context {Op : Ops}.
Notation does2 := (does2 (V:=C)).
Notation sub v p := (Forall (fun u => does2 u p) v).

Lemma sub_vec nt mt ml ms L (t : nat -> lane C) : sub (vec nt mt ml ms L t) (vblock L t).
Proof.
  apply Forall_forall. intros v H. unfold vec in H. apply in_app_or in H. destruct H as [H|H]; [|apply in_app_or in H; destruct H as [H|H]];
    apply in_group in H; destruct H as (i & j & Hi & Hj & H1 & H2).
  - apply in_firstn in H1. apply in_firstn in H2. exists false. split; [apply (does_rdL _ _ _ _ _ i)|apply (does_rdL _ _ _ _ _ j)]; assumption.
  - apply in_skipn in H1. apply in_skipn in H2. exists false. split; [apply (does_rdL _ _ _ _ _ i)|apply (does_rdL _ _ _ _ _ j)]; assumption.
  - exists true. split; [apply (does_wrL _ _ _ _ _ i)|apply (does_wrL _ _ _ _ _ j)]; assumption.
Qed.
(** lanes that differ in twiddle factors and arithmetic only *)
Lemma sub_vec_tw nt ml ms L (t t' : nat -> lane C) :
  (forall l, skipn nt (rd (t l)) = skipn nt (rd (t' l))) -> (forall l, wr (t l) = wr (t' l)) -> sub (vec nt Scalar ml ms L t) (vblock L t').
Proof.
  intros Hr Hw. eapply Forall_impl; [intros v; exact (fun H => H)|].
  replace (vec nt Scalar ml ms L t) with (vec nt Scalar ml ms L t'); [apply sub_vec|].
  unfold vec, group. f_equal. f_equal; destruct ml, ms; cbn; auto; apply flat_map_ext; intros; rewrite ?Hr, ?Hw; reflexivity.
Qed.
Lemma sub_for n f body : (forall i, i < n -> sub (f i) (body i)) -> sub (vfor n f) (for_ n body).
Proof.
  intros H. apply Forall_forall. intros v Hv. apply in_flat_map in Hv. destruct Hv as (i & Hi & Hv). apply in_seq in Hi.
  assert (Hi' : i < n) by lia. specialize (H i Hi'). rewrite Forall_forall in H. apply (does2_for v n body i); auto.
Qed.
Lemma sub_step n st f body : (forall i, sub (f i) (body i)) -> sub (vstep n st f) (for_step n st body).
Proof. intros H. apply sub_for. auto. Qed.
Lemma sub_seq f g (p q : prog C unit) : sub f p -> sub g q -> sub (f ++ g) (p ;;; q).
Proof.
  intros Hf Hg. apply Forall_app. split; eapply Forall_impl; [| exact Hf| |exact Hg]; intros v; [apply does2_l|apply does2_r].
Qed.
Lemma sub_l f (p q : prog C unit) : sub f p -> sub f (p ;;; q).
Proof. intros H. eapply Forall_impl; [|exact H]. intros v. apply does2_l. Qed.
Lemma sub_r f (p q : prog C unit) : sub f q -> sub f (p ;;; q).
Proof. intros H. eapply Forall_impl; [|exact H]. intros v. apply does2_r. Qed.
Lemma sub_nil (p : prog C unit) : sub [] p.
Proof. constructor. Qed.
Lemma sub_UB l : sub l (UB : prog C unit).
Proof. apply Forall_forall. intros v _. exists true. split; exact I. Qed.
Lemma sub_block rs ws f : sub (pairs rs ++ pairs ws) (block (V:=C) rs ws f).
Proof.
  apply Forall_app. split; apply Forall_forall; intros v H; apply in_pairs in H; destruct H; [exists false|exists true]; split;
    (apply does_rd || apply does_wr); assumption.
Qed.

Notation rsub v r := (Forall (fun u => region_does2 (V:=C) u r) v).
Notation csub v c := (Forall (fun u => call_does2 (V:=C) u c) v).
Lemma rsub_phase n f body : (forall i, i < n -> sub (f i) (body i)) -> rsub (vfor n f) [(n, body)].
Proof.
  intros H. apply Forall_forall. intros v Hv. apply in_flat_map in Hv. destruct Hv as (i & Hi & Hv). apply in_seq in Hi.
  assert (Hi' : i < n) by lia. specialize (H i Hi'). rewrite Forall_forall in H. apply (rd2_phase v n body i); auto.
Qed.
Lemma rsub_step n st f body : (forall i, sub (f i) (body i)) -> rsub (vstep n st f) [par_step n st body].
Proof. intros H. apply rsub_phase. auto. Qed.
Lemma rsub_single l p : sub l p -> rsub l [single p].
Proof. intros H. eapply Forall_impl; [|exact H]. intros v Hv. apply (rd2_phase v 1 _ 0); auto. Qed.
Lemma rsub_nil r : rsub [] r.
Proof. constructor. Qed.
Lemma rsub_app f g r r' : rsub f r -> rsub g r' -> rsub (f ++ g) (r ++ r').
Proof.
  intros Hf Hg. apply Forall_app. split; eapply Forall_impl; [| exact Hf| |exact Hg]; intros v; [apply rd2_l|apply rd2_r].
Qed.
Lemma rsub_cons f g ph r : rsub f [ph] -> rsub g r -> rsub (f ++ g) (ph :: r).
Proof. exact (rsub_app f g [ph] r). Qed.
Lemma csub_par l r : rsub l r -> csub l [Par r].
Proof. intros H. eapply Forall_impl; [|exact H]. intros v. apply cd2_par. Qed.
Lemma csub_app f g c c' : csub f c -> csub g c' -> csub (f ++ g) (c ++ c').
Proof.
  intros Hf Hg. apply Forall_app. split; eapply Forall_impl; [| exact Hf| |exact Hg]; intros v; [apply cd2_l|apply cd2_r].
Qed.
Lemma csub_l f c c' : csub f c -> csub f (c ++ c').
Proof. intros H. eapply Forall_impl; [|exact H]. intros v. apply cd2_l. Qed.
Lemma csub_r f c c' : csub f c' -> csub f (c ++ c').
Proof. intros H. eapply Forall_impl; [|exact H]. intros v. apply cd2_r. Qed.
Lemma csub_nil c : csub [] c.
Proof. constructor. Qed.

Ltac hd t := match t with ?f _ => hd f | _ => t end.
Ltac unf2 := match goal with
  | |- Forall (fun u => Performs.does2 u ?p) ?v => let a := hd p in let b := hd v in unfold a, b
  | |- Forall (fun u => region_does2 u ?p) ?v => let a := hd p in let b := hd v in unfold a, b end.
Ltac kern := first
  [ apply sub_nil | apply rsub_nil | apply sub_UB
  | apply sub_vec | (apply sub_step; intro) | (apply sub_for; intros ? _) | (apply rsub_step; intro) | (apply rsub_phase; intros ? _)
  | apply rsub_single ].

(** ** power-of-two kernels *)
Lemma sub_core a inv W n s x y : sub (core_va false a inv W n s x y) (core a inv W n s x y).
Proof.
  destruct a; cbn [core core_va]; unf2; destruct (s =? 1), inv; unf2; cbv zeta; repeat kern.
Qed.
Lemma sub_fin a inv mode n s eo x y : sub (fin_va false a inv mode n s eo x y) (fin a inv mode n s eo x y).
Proof.
  destruct a; cbn [fin fin_va]; repeat (unf2; repeat match goal with |- context [if ?c then _ else _] => destruct c end; cbv zeta; repeat kern).
Qed.
Lemma sub_coreo a inv W n s x y : rsub (core_va true a inv W n s x y) (coreo a inv W n s x y).
Proof.
  destruct a; cbn [coreo core_va]; unf2; destruct (s =? 1), inv; unf2; cbv zeta; repeat kern.
Qed.
Lemma sub_fino a inv mode n s eo x y : rsub (fin_va true a inv mode n s eo x y) (fino a inv mode n s eo x y).
Proof.
  destruct a; cbn [fino fin_va]; repeat (unf2; repeat match goal with |- context [if ?c then _ else _] => destruct c end; cbv zeta; repeat kern).
Qed.

Lemma sub_fft_s a inv mode n s eo x y W : sub (fft_va false a inv mode n s eo x y W) (fft_s a inv mode n s eo x y W).
Proof.
  unfold fft_va, fft_s. destruct (is_dit a); generalize n at 1 3 as fuel; intros fuel; revert n s eo x y; induction fuel as [|fuel IH]; intros; cbn [dit_rec dif_rec];
    try apply sub_UB; destruct (n <=? radix a); auto using sub_fin, sub_core, sub_seq.
Qed.
Lemma sub_fft_o a inv mode n s eo x y W : rsub (fft_va true a inv mode n s eo x y W) (fft_o a inv mode n s eo x y W).
Proof.
  unfold fft_va, fft_o. destruct (is_dit a); generalize n at 1 3 as fuel; intros fuel; revert n s eo x y; induction fuel as [|fuel IH]; intros; cbn [dit_rec dif_rec];
    try apply rsub_nil; destruct (n <=? radix a); auto using sub_fino, sub_coreo, rsub_app.
Qed.
Lemma sub_pow a b n k x y : csub (pow_va a b n k x y) (pow_run a b n k x y).
Proof.
  unfold pow_va, pow_run, pow_serial, pow_parallel. cbv zeta. destruct (2 ^ n <? omp_min a); cbn [negb]; apply csub_par.
  - apply rsub_single. destruct ((1 <=? n) && (n <=? 24)); [apply sub_fft_s|apply sub_nil].
  - destruct ((1 <=? n) && (n <=? 24)); [apply sub_fft_o|apply rsub_nil].
Qed.

(** ** six- and eight-step *)
Lemma sub_pre l rs ws f : sub (pairs l ++ pairs rs ++ pairs ws) (block (V:=C) (l ++ rs) ws f).
Proof.
  apply Forall_app. split; [|apply Forall_app; split]; apply Forall_forall; intros v H; apply in_pairs in H; destruct H.
  - exists false. split; apply does_rd; apply in_or_app; auto.
  - exists false. split; apply does_rd; apply in_or_app; auto.
  - exists true. split; apply does_wr; auto.
Qed.
Lemma sub_transpose n k p x : sub (transpose_va n k p x) (transpose_kernel n k p x).
Proof. unfold transpose_va, transpose_kernel. destruct (k =? p); [constructor|apply sub_block]. Qed.
Lemma sub_mult inv N mode n i p k x W : sub (mult_va n i p k x W) (mult_twiddle_factor_kernel inv N mode n i p k x W).
Proof. unfold mult_va, mult_twiddle_factor_kernel. destruct (k =? p); apply sub_pre. Qed.
Lemma sub_iv iv i f g : (forall r c, sub (f r c) (g r c)) -> sub (iv_va iv i f) (iv_get iv i g).
Proof. intros H. unfold iv_va, iv_get. destruct (iv i) as [[r c]|]; [apply H|constructor]. Qed.
Lemma sub_part1 iv inv mode log_N x y W Ws : sub (six_fft_va iv inv log_N x y W Ws) (six_part1 iv inv mode log_N x y W Ws).
Proof.
  unfold six_fft_va, six_part1. cbv zeta. repeat apply sub_seq; apply sub_for; intros i _;
    first [apply sub_fft_s | apply sub_iv; intros; first [apply sub_transpose | apply sub_mult]].
Qed.
Lemma sub_part2 iv inv mode log_N x y W Ws : rsub (six_fft_va iv inv log_N x y W Ws) (six_part2 iv inv mode log_N x y W Ws).
Proof.
  unfold six_fft_va, six_part2. cbv zeta. repeat apply rsub_cons; apply rsub_phase; intros i _;
    first [apply sub_fft_s | apply sub_iv; intros; first [apply sub_transpose | apply sub_mult]].
Qed.
Lemma sub_region_seq l r : rsub l r -> sub l (region_seq r).
Proof.
  intros H. eapply Forall_impl; [|exact H]. clear l H. intros v (ph & i & Hin & Hi & Hd).
  induction r as [|ph' r IH]; [destruct Hin|]. cbn [region_seq]. destruct Hin as [->|Hin].
  - apply does2_l. apply (does2_for v _ _ i); auto.
  - apply does2_r. auto.
Qed.
Lemma sub_bfly inv N mode x y W p : sub (eight_bfly_va inv N mode x y W p) (eight_bfly inv N mode x y W p).
Proof. apply sub_vec. Qed.
Lemma sub_eight_tr N x y p : sub (eight_tr_va N x y p) (eight_tr N x y p).
Proof. unfold eight_tr_va, eight_tr. cbv zeta. apply sub_for. intros i _. apply sub_block. Qed.
Lemma sub_eight iv inv mode log_N x y W Wm Ws : csub (eight_fft_va iv inv mode log_N x y W Wm Ws) (eight_fft iv inv mode log_N x y W Wm Ws).
Proof.
  unfold eight_fft_va, eight_fft. cbv zeta. destruct (2 ^ log_N <? eight_omp1); [|destruct (2 ^ log_N <? eight_omp2)].
  - apply csub_par, rsub_single. apply sub_seq; [apply sub_step; intros; apply sub_bfly|apply sub_seq].
    + apply sub_for. intros i _. apply sub_part1.
    + apply sub_step. intros. apply sub_eight_tr.
  - apply csub_par. apply rsub_cons; [apply rsub_step; intros; apply sub_bfly|apply rsub_cons].
    + apply rsub_phase. intros i _. unfold eight_part1. rewrite (Nat.mul_comm i). apply sub_part1.
    + apply rsub_step. intros. apply sub_eight_tr.
  - unfold eight_large. apply (csub_app _ _ [_] [_; _]); [apply csub_par, rsub_step; intros; apply sub_bfly|apply (csub_app _ _ [_] [_])].
    + apply csub_par, rsub_single, sub_for. intros i _. apply sub_region_seq, sub_part2.
    + apply csub_par, rsub_step. intros. apply sub_eight_tr.
Qed.
Lemma sub_six b n k x y : csub (six_va b n k x y) (six_run b n k x y).
Proof.
  unfold six_va, six_run. cbv zeta. destruct (n =? 0); [constructor|]. destruct (n <=? 5); [apply csub_par, rsub_single, sub_fft_s|].
  destruct (24 <? n); [constructor|]. destruct (Nat.odd n); [apply sub_eight|].
  unfold six_fft. destruct (2 ^ n <? six_omp); apply csub_par; [apply rsub_single, sub_part1|apply sub_part2].
Qed.

(** ** mixed radix *)
Lemma sub_mend r s x z f f' q : sub (vec 0 Scalar Across Across 2 (fun l => lane_end r s x z x [] f (q + l))) (vblock 2 (fun l => lane_end r s x z x [] f' (q + l))).
Proof. apply sub_vec_tw; reflexivity. Qed.
Lemma sub_mcore r N1 s x y W tw tw' f f' sp q nt : length tw = nt -> length tw' = nt ->
  sub (vec nt Scalar Across Across 2 (fun l => lane_core r N1 s x y W tw f sp (q + l))) (vblock 2 (fun l => lane_core r N1 s x y W tw' f' sp (q + l))).
Proof.
  intros H H'. apply sub_vec_tw; [|reflexivity]. intros l. unfold lane_core, rd.
  rewrite !skipn_app, !map_length, H, H'. rewrite (skipn_all2 (map _ tw)), (skipn_all2 (map _ tw')) by (rewrite map_length; lia). reflexivity.
Qed.
Lemma sub_mixed_s W : forall fuel n s eo x y,
  sub (mixed_fft_va fuel n s eo x y W) (fwdfft fuel n s eo x y W) /\ sub (mixed_fft_va fuel n s eo x y W) (invfft fuel n s eo x y W).
Proof.
  induction fuel as [|fuel IH]; intros; [split; apply sub_UB|]. cbn [mixed_fft_va fwdfft invfft].
  destruct (n * s <? 2); [split; apply sub_nil|].
  assert (E : forall r f f' (p : prog C unit), sub (if 2 <=? s then vstep s 2 (fun q => vec 0 Scalar Across Across 2 (fun l => lane_end r s x (if eo then y else x) x [] f (q + l))) else [])
    (if 2 <=? s then for_step s 2 (fun q => vblock 2 (fun l => lane_end r s x (if eo then y else x) x [] f' (q + l))) else p)).
  { intros. destruct (2 <=? s); [|apply sub_nil]. apply sub_step. intros q. apply sub_mend. }
  assert (K : forall r nt tw tw' f f' (p : prog C unit), (forall i, length (tw i) = nt) -> (forall i, length (tw' i) = nt) ->
    sub (if 2 <=? s then vfor (n / r) (fun p => vstep s 2 (fun q => vec nt Scalar Across Across 2 (fun l => lane_core r (n * s / r) s x y W (tw (s * p)) f (s * p) (q + l)))) else [])
    (if 2 <=? s then for_ (n / r) (fun p => for_step s 2 (fun q => vblock 2 (fun l => lane_core r (n * s / r) s x y W (tw' (s * p)) f' (s * p) (q + l)))) else p)).
  { intros. destruct (2 <=? s); [|apply sub_nil]. apply sub_for. intros i _. apply sub_step. intros q. apply sub_mcore; auto. }
  destruct (n mod 8 =? 0).
  { destruct (n =? 8); [split; apply (E 8)|].
    split; (apply sub_seq; [|apply IH]); [apply (K 8 3 (fun sp => [1 * sp; 2 * sp; 3 * sp]) (fun sp => [1 * sp; 2 * sp; 3 * sp]))|apply (K 8 3 (fun sp => [1 * sp; 2 * sp; 3 * sp]) (fun sp => [n * s - 1 * sp; n * s - 2 * sp; n * s - 3 * sp]))]; reflexivity. }
  destruct (n mod 4 =? 0).
  { destruct (n =? 4); [split; apply (E 4)|].
    split; (apply sub_seq; [|apply IH]); [apply (K 4 3 (fun sp => [1 * sp; 2 * sp; 3 * sp]) (fun sp => [1 * sp; 2 * sp; 3 * sp]))|apply (K 4 3 (fun sp => [1 * sp; 2 * sp; 3 * sp]) (fun sp => [n * s - 1 * sp; n * s - 2 * sp; n * s - 3 * sp]))]; reflexivity. }
  destruct (n mod 2 =? 0).
  { destruct (n =? 2); [split; apply (E 2)|].
    split; (apply sub_seq; [|apply IH]); [apply (K 2 1 (fun sp => [sp]) (fun sp => [sp]))|apply (K 2 1 (fun sp => [sp]) (fun sp => [n * s - sp]))]; reflexivity. }
  destruct (n mod 5 =? 0).
  { destruct (n =? 5); [split; apply sub_nil|]. split; apply sub_r, IH. }
  destruct (n mod 3 =? 0).
  { destruct (n =? 3); [split; apply sub_nil|]. split; apply sub_r, IH. }
  split; apply sub_nil.
Qed.

(** the parallel loops number the pairs (p, q) by p * (s / 2) + q / 2 *)
Lemma rsub_flat m s N f body : (exists h, s = 2 * h) -> 0 < s -> N = m * (s / 2) ->
  (forall p j, sub (f p (2 * j)) (body p (j * 2))) ->
  rsub (vfor m (fun p => vstep s 2 (f p))) [(N, fun i => body (i / (s / 2)) (i mod (s / 2) * 2))].
Proof.
  intros (h & Hs) H0 HN H. assert (Eh : s / 2 = h) by (rewrite Hs, Nat.mul_comm; apply Nat.div_mul; lia).
  assert (El : (s + 2 - 1) / 2 = h).
  { replace (s + 2 - 1) with (1 + h * 2) by lia. rewrite Nat.div_add by lia. reflexivity. }
  rewrite Eh in *. apply Forall_forall. intros v Hv. apply in_flat_map in Hv. destruct Hv as (p & Hp & Hv). apply in_seq in Hp.
  unfold vstep, vfor in Hv. rewrite El in Hv. apply in_flat_map in Hv. destruct Hv as (j & Hj & Hv). apply in_seq in Hj.
  assert (Hi : (j + p * h) < N) by (rewrite HN; nia).
  apply (rd2_phase v N _ (j + p * h) Hi). rewrite Nat.div_add, Nat.mod_add, Nat.div_small, Nat.mod_small by lia. cbn [Nat.add].
  specialize (H p j). rewrite Forall_forall in H. auto.
Qed.
Definition even_or_odd (n s : nat) : Prop := s = 1 \/ (exists h, s = 2 * h) \/ exists h, n = 2 * h + 1.
Lemma sub_mixed_p W : forall fuel n s eo x y, 0 < n -> 0 < s -> even_or_odd n s ->
  rsub (mixed_fft_va fuel n s eo x y W) (fwdfftp fuel n s eo x y W) /\ rsub (mixed_fft_va fuel n s eo x y W) (invfftp fuel n s eo x y W).
Proof.
  induction fuel as [|fuel IH]; intros n s eo x y Hn0 Hs0 Hs; [split; apply rsub_nil|]. cbn [mixed_fft_va fwdfftp invfftp].
  destruct (n * s <? 2); [split; apply rsub_nil|].
  assert (E : forall r f f' ph, rsub (if 2 <=? s then vstep s 2 (fun q => vec 0 Scalar Across Across 2 (fun l => lane_end r s x (if eo then y else x) x [] f (q + l))) else [])
    [if 2 <=? s then par_step s 2 (fun q => vblock 2 (fun l => lane_end r s x (if eo then y else x) x [] f' (q + l))) else ph]).
  { intros. destruct (2 <=? s); [|apply rsub_nil]. apply rsub_step. intros q. apply sub_mend. }
  assert (K : forall r h nt tw tw' f f' ph, (forall i, length (tw i) = nt) -> (forall i, length (tw' i) = nt) -> n = r * (n / r) -> r = 2 * h -> 0 < r ->
    rsub (if 2 <=? s then vfor (n / r) (fun p => vstep s 2 (fun q => vec nt Scalar Across Across 2 (fun l => lane_core r (n * s / r) s x y W (tw (s * p)) f (s * p) (q + l)))) else [])
    [if 2 <=? s then (n * s / (2 * r), fun i => vblock 2 (fun l => lane_core r (n * s / r) s x y W (tw' (s * (i / (s / 2)))) f' (s * (i / (s / 2))) (i mod (s / 2) * 2 + l))) else ph]).
  { intros r h nt tw tw' f f' ph Ht Ht' En Hr Hr0. destruct (2 <=? s) eqn:E2; [|apply rsub_nil]. apply Nat.leb_le in E2.
    assert (Hev : exists h, s = 2 * h).
    { destruct Hs as [-> | [H | (h' & H')]]; [lia|exact H|]. exfalso. set (m := n / r) in *. rewrite En, Hr in H'. lia. }
    apply (rsub_flat (n / r) s (n * s / (2 * r)) (fun p q => vec nt Scalar Across Across 2 (fun l => lane_core r (n * s / r) s x y W (tw (s * p)) f (s * p) (q + l)))
             (fun p q => vblock 2 (fun l => lane_core r (n * s / r) s x y W (tw' (s * p)) f' (s * p) (q + l)))); auto.
    - destruct Hev as (g & Hg). set (m := n / r) in *. rewrite En, Hg. replace (2 * g / 2) with g by (rewrite Nat.mul_comm, Nat.div_mul; lia).
      replace (r * m * (2 * g)) with (m * g * (2 * r)) by lia. apply Nat.div_mul. lia.
    - intros p j. rewrite (Nat.mul_comm j 2). apply sub_mcore; auto. }
  assert (R : forall r, n = r * (n / r) -> 0 < r -> ((exists h, r = 2 * h) \/ exists h, n = 2 * h + 1) ->
    rsub (mixed_fft_va fuel (n / r) (r * s) (negb eo) y x W) (fwdfftp fuel (n / r) (r * s) (negb eo) y x W) /\
    rsub (mixed_fft_va fuel (n / r) (r * s) (negb eo) y x W) (invfftp fuel (n / r) (r * s) (negb eo) y x W)).
  { intros r En Hr0 Hor. apply IH.
    - destruct (n / r); lia.
    - apply Nat.mul_pos_pos; auto.
    - right. destruct Hor as [(h & ->)|(h & Hh)]; [left; exists (h * s); lia|right].
      set (m := n / r) in *. destruct (Nat.Even_or_Odd m) as [(e & He)|(e & He)]; [exfalso; rewrite He in En; lia|exists e; auto]. }
  Ltac mod0' H := apply Nat.eqb_eq in H; apply Nat.div_exact in H; [|lia].
  destruct (n mod 8 =? 0) eqn:E8; [mod0' E8|].
  { destruct (n =? 8); [split; apply (E 8)|]. destruct (R 8 E8 ltac:(lia)) as [R1 R2]; [left; exists 4; reflexivity|].
    split; (apply rsub_cons; [|assumption]); [apply (K 8 4 3 (fun sp => [1 * sp; 2 * sp; 3 * sp]) (fun sp => [1 * sp; 2 * sp; 3 * sp]))|apply (K 8 4 3 (fun sp => [1 * sp; 2 * sp; 3 * sp]) (fun sp => [n * s - 1 * sp; n * s - 2 * sp; n * s - 3 * sp]))]; auto; lia. }
  destruct (n mod 4 =? 0) eqn:E4; [mod0' E4|].
  { destruct (n =? 4); [split; apply (E 4)|]. destruct (R 4 E4 ltac:(lia)) as [R1 R2]; [left; exists 2; reflexivity|].
    split; (apply rsub_cons; [|assumption]); [apply (K 4 2 3 (fun sp => [1 * sp; 2 * sp; 3 * sp]) (fun sp => [1 * sp; 2 * sp; 3 * sp]))|apply (K 4 2 3 (fun sp => [1 * sp; 2 * sp; 3 * sp]) (fun sp => [n * s - 1 * sp; n * s - 2 * sp; n * s - 3 * sp]))]; auto; lia. }
  destruct (n mod 2 =? 0) eqn:E2; [mod0' E2|].
  { destruct (n =? 2); [split; apply (E 2)|]. destruct (R 2 E2 ltac:(lia)) as [R1 R2]; [left; exists 1; reflexivity|].
    split; (apply rsub_cons; [|assumption]); [apply (K 2 1 1 (fun sp => [sp]) (fun sp => [sp]))|apply (K 2 1 1 (fun sp => [sp]) (fun sp => [n * s - sp]))]; auto; lia. }
  assert (Hodd : exists h, n = 2 * h + 1).
  { apply Nat.eqb_neq in E2. exists (n / 2). pose proof (Nat.div_mod n 2 ltac:(lia)). pose proof (Nat.mod_upper_bound n 2 ltac:(lia)). lia. }
  destruct (n mod 5 =? 0) eqn:E5; [mod0' E5|].
  { destruct (n =? 5); [split; apply rsub_nil|]. destruct (R 5 E5 ltac:(lia)) as [R1 R2]; [right; exact Hodd|].
    split; apply (rsub_cons [] _ _ _ (rsub_nil _)); assumption. }
  destruct (n mod 3 =? 0) eqn:E3; [mod0' E3|].
  { destruct (n =? 3); [split; apply rsub_nil|]. destruct (R 3 E3 ltac:(lia)) as [R1 R2]; [right; exact Hodd|].
    split; apply (rsub_cons [] _ _ _ (rsub_nil _)); assumption. }
  split; apply rsub_nil.
Qed.
Lemma sub_mixed b N k x y : csub (mixed_va b N x y) (mixed_run b N k x y).
Proof.
  unfold mixed_va, mixed_run, mixed_serial, mixed_parallel. cbv zeta. destruct N as [|N]; [constructor|].
  destruct (S N <? mixed_omp).
  - apply csub_par, rsub_single, sub_l. destruct (meth_inv k); apply sub_mixed_s.
  - apply (csub_l _ [_]), csub_par. destruct (meth_inv k); apply sub_mixed_p; try lia; left; reflexivity.
Qed.

(** ** calls *)
Lemma sub_engine b e k x y : csub (engine_va b e k x y) (engine_run b e k x y).
Proof. destruct e; cbn [engine_va engine_run]; [apply sub_pow|apply sub_six|apply sub_mixed]. Qed.
Lemma sub_fft0 b N k x y : csub (fft0_va b N k x y) (fft0_run b N k x y).
Proof. unfold fft0_va, fft0_run. destruct (select N); [apply sub_engine|constructor]. Qed.
Lemma sub_complex b N k x : csub (complex_va b N k x) (fft_run b N k x).
Proof. apply sub_fft0. Qed.
Lemma sub_rfft b N k x y : csub (rfft_va b N k x y) (rfft_run b N k x y).
Proof.
  unfold rfft_va, rfft_run. destruct (N <? 2) eqn:E; [constructor|]. apply Nat.ltb_ge in E. cbv zeta.
  assert (E1 : (N <? 1) = false) by (apply Nat.ltb_ge; lia). assert (E2 : (N =? 1) = false) by (apply Nat.eqb_neq; lia).
  destruct (meth_inv k); unfold rfft_inv, rfft_fwd; rewrite E1, E2; cbv zeta; apply csub_r, csub_l, sub_fft0.
Qed.
Lemma dct_kind_inv k : meth_inv (dct_kind k) = match k with Dinv | Dinv0 | Dinvn => true | _ => false end.
Proof. destruct k; reflexivity. Qed.
Lemma sub_dct b N k x : csub (dct_va b N k x) (dct_run b N k x).
Proof.
  unfold dct_va, dct_run, dct0_run, dct0_fwd, dct0_inv. destruct (N <? 2); [constructor|]. cbv zeta.
  pose proof (dct_kind_inv k) as Hk. pose proof (sub_rfft b N (dct_kind k) (b + 5, 0) (b + 6, 0)) as H1.
  pose proof (sub_rfft b N (dct_kind k) (b + 6, 0) (b + 5, 0)) as H2. unfold rfft_run in H1, H2. rewrite Hk in H1, H2.
  destruct k; cbn [dct_kind] in *.
  1-3: apply csub_r, csub_l; assumption.
  all: apply csub_r, csub_r, csub_l; assumption.
Qed.
Lemma sub_bluestein b N k x : csub (bluestein_va b N k x) (bl_run b N k x).
Proof.
  unfold bluestein_va, bl_run. destruct (pad_loop 32 1 (2 * N - 1)) as [L|]; [|constructor]. unfold bl_run_L. cbv zeta.
  destruct (N <? 2); [constructor|]. apply csub_r, csub_r. apply csub_app; [apply sub_complex|]. apply csub_app; [apply sub_complex|].
  apply csub_r, csub_l. apply sub_complex.
Qed.
End Lane.
