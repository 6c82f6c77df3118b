(** * Every pass of the mixed-radix FFT as a function on arrays (any arithmetic) *)

From Coq Require Import List Arith ZArith Bool Lia.
From Verif Require Import Scalar Mem MemFacts Omp OmpFacts Lanes Butterfly Stage CoreStage ModelMixed.
Import ListNotations.

Lemma Splits_ext {V K} n (b1 b2 : nat -> prog V unit) (D : K -> Prop) t :
  (forall i, i < n -> b1 i = b2 i) -> Splits n b1 D t -> Splits n b2 D t.
Proof.
  intros E (Di & H1 & H2). exists Di. split; auto. intros i Hi. rewrite <- E by auto. auto.
Qed.
Lemma Splits_n {V K} n n' (b : nat -> prog V unit) (D : K -> Prop) t : n = n' -> Splits n b D t -> Splits n' b D t.
Proof. intros ->. auto. Qed.

Section MixedStage.
Context {Op : Ops}.
Notation prog := (prog C).
Notation lane := (lane C).
Notation phase := (phase (V:=C)).

(** ** The loop skeletons of otfft_mixedradix.h *)
Section Skel.
Variables (r n s : nat) (x y W : ptr) (tv ts : nat -> nat -> list nat) (fv fs : list C -> list C).

Definition core_v : prog unit :=
  let m := n / r in let N := n * s in let N1 := N / r in
  if 2 <=? s
  then for_ m (fun p => let sp := s * p in
         for_step s 2 (fun q => vblock 2 (fun l => lane_core r N1 s x y W (tv N sp) fv sp (q + l))))
  else for_ m (fun p => lblock (lane_core r N1 1 x y W (ts N p) fs p 0)).

Definition core_vp : phase :=
  let m := n / r in let N := n * s in let N1 := N / r in
  if 2 <=? s
  then (N / (r * 2), fun i =>
         let p := i / (s / 2) in let q := i mod (s / 2) * 2 in let sp := s * p in
         vblock 2 (fun l => lane_core r N1 s x y W (tv N sp) fv sp (q + l)))
  else (m, fun p => lblock (lane_core r N1 1 x y W (ts N p) fs p 0)).

Definition core_s : prog unit :=
  let N := n * s in let m := n / r in let N1 := N / r in
  for_ m (fun p => let sp := s * p in
    for_ s (fun q => lblock (lane_core r N1 s x y W (tv N sp) fv sp q))).

Definition core_sp : phase :=
  let N := n * s in let ms := N / r in let N1 := N / r in
  (ms, fun i =>
    let p := i / s in let q := i mod s in let sp := s * p in
    lblock (lane_core r N1 s x y W (tv N sp) fv sp q)).

Definition ctw (p : nat) : list nat := if 2 <=? s then tv (n * s) (s * p) else ts (n * s) p.
Definition cf : list C -> list C := if 2 <=? s then fv else fs.

Variables (m : nat) (NW : nat -> Prop).
Hypothesis Hn : n = r * m.
Hypothesis Hr : 0 < r.
Hypothesis Hm : 0 < m.
Hypothesis Hs : 0 < s.
Hypothesis Hxy : disjR x (n * s) y (n * s).
Hypothesis HW : disjT W NW y (n * s).

Lemma sk_m : n / r = m.
Proof. rewrite Hn, Nat.mul_comm, Nat.div_mul by lia. auto. Qed.
Lemma sk_N1 : n * s / r = m * s.
Proof. rewrite Hn. replace (r * m * s) with (m * s * r) by lia. rewrite Nat.div_mul by lia. auto. Qed.

Section V.
Hypothesis Hev : s = 1 \/ exists h, s = 2 * h.
Hypothesis Htw : forall p e, p < m -> In e (ctw p) -> NW e.
Hypothesis Hf : forall p vs, p < m -> length vs = length (ctw p) + r -> length (cf vs) = r.

Let t := dif_lane r m s x y W ctw cf.

Lemma dl_ok k : DD m s k -> lane_ok (t k).
Proof. apply (dif_lane_ok r m s (n * s) NW x y W ctw cf); auto; rewrite Hn; reflexivity. Qed.
Lemma dl_disj : Disj (DD m s) t.
Proof. apply (dif_disj r m s (n * s) NW x y W ctw cf); auto; rewrite Hn; reflexivity. Qed.

Lemma core_v_C : Computes core_v x (n * s) W NW (inR y (n * s)) y (n * s) (dif_fun r m s ctw cf).
Proof.
  unfold core_v. rewrite sk_m, sk_N1. cbv zeta.
  destruct (2 <=? s) eqn:E2.
  - apply Nat.leb_le in E2. destruct Hev as [->|[h Eh]]; [lia|].
    apply dif_Computes with (m := m); auto; try (rewrite Hn; reflexivity).
    eapply Splits_ext; [|apply (Splits_nest_v m s t dl_ok dl_disj 2 h Eh); lia].
    intros p Hp. cbv beta. unfold t, dif_lane, ctw, cf. cbn [fst snd].
    assert (Eb : (2 <=? s) = true) by (apply Nat.leb_le; auto). rewrite Eb. reflexivity.
  - apply Nat.leb_gt in E2. assert (s = 1) by lia.
    apply dif_Computes with (m := m); auto; try (rewrite Hn; reflexivity).
    eapply Splits_ext; [|apply (Splits_col_1 m s t dl_ok dl_disj H)].
    intros p Hp. cbv beta. unfold t, dif_lane, ctw, cf. cbn [fst snd].
    assert (Eb : (2 <=? s) = false) by (apply Nat.leb_gt; auto). rewrite Eb. rewrite H, Nat.mul_1_l. reflexivity.
Qed.

Lemma core_vp_R : RComputes [core_vp] x (n * s) W NW (inR y (n * s)) y (n * s) (dif_fun r m s ctw cf).
Proof.
  unfold core_vp. rewrite sk_m, sk_N1. cbv zeta.
  destruct (2 <=? s) eqn:E2.
  - apply Nat.leb_le in E2. destruct Hev as [->|[h Eh]]; [lia|].
    apply dif_RComputes with (m := m); auto; try (rewrite Hn; reflexivity).
    assert (Ed : s / 2 = h) by (rewrite Eh, Nat.mul_comm, Nat.div_mul; lia).
    apply (Splits_n (m * h)).
    { rewrite Hn, Eh. replace (r * m * (2 * h)) with (m * h * (r * 2)) by lia. rewrite Nat.div_mul; lia. }
    eapply Splits_ext; [|apply (Splits_flat_v m s t dl_ok dl_disj 2 h Eh); lia].
    intros p Hp. cbv beta. unfold t, dif_lane, ctw, cf. cbn [fst snd].
    assert (Eb : (2 <=? s) = true) by (apply Nat.leb_le; auto). rewrite Eb, Ed. reflexivity.
  - apply Nat.leb_gt in E2. assert (s = 1) by lia.
    apply dif_RComputes with (m := m); auto; try (rewrite Hn; reflexivity).
    eapply Splits_ext; [|apply (Splits_col_1 m s t dl_ok dl_disj H)].
    intros p Hp. cbv beta. unfold t, dif_lane, ctw, cf. cbn [fst snd].
    assert (Eb : (2 <=? s) = false) by (apply Nat.leb_gt; auto). rewrite Eb. rewrite H, Nat.mul_1_l. reflexivity.
Qed.
End V.

Section S.
Definition stw (p : nat) : list nat := tv (n * s) (s * p).
Hypothesis Htw : forall p e, p < m -> In e (stw p) -> NW e.
Hypothesis Hf : forall p vs, p < m -> length vs = length (stw p) + r -> length (fv vs) = r.

Let t := dif_lane r m s x y W stw fv.

Lemma sl_ok k : DD m s k -> lane_ok (t k).
Proof. apply (dif_lane_ok r m s (n * s) NW x y W stw fv); auto; rewrite Hn; reflexivity. Qed.
Lemma sl_disj : Disj (DD m s) t.
Proof. apply (dif_disj r m s (n * s) NW x y W stw fv); auto; rewrite Hn; reflexivity. Qed.

Lemma core_s_C : Computes core_s x (n * s) W NW (inR y (n * s)) y (n * s) (dif_fun r m s stw fv).
Proof.
  unfold core_s. rewrite sk_m, sk_N1. cbv zeta.
  apply dif_Computes with (m := m); auto; try (rewrite Hn; reflexivity).
  exact (Splits_nest_1 m s t sl_ok sl_disj).
Qed.
Lemma core_sp_R : RComputes [core_sp] x (n * s) W NW (inR y (n * s)) y (n * s) (dif_fun r m s stw fv).
Proof.
  unfold core_sp. rewrite sk_N1. cbv zeta.
  apply dif_RComputes with (m := m); auto; try (rewrite Hn; reflexivity).
  exact (Splits_flat_1 m s t sl_ok sl_disj).
Qed.
End S.
End Skel.

(** ** Final passes *)
Section Ends.
Variables (r s : nat) (x z W : ptr) (tw : list nat) (f : list C -> list C).

Definition end_v : prog unit :=
  if 2 <=? s
  then for_step s 2 (fun q => vblock 2 (fun l => lane_end r s x z W tw f (q + l)))
  else lblock (lane_end r 1 x z W tw f 0).
Definition end_vp : phase :=
  if 2 <=? s
  then par_step s 2 (fun q => vblock 2 (fun l => lane_end r s x z W tw f (q + l)))
  else single (lblock (lane_end r 1 x z W tw f 0)).
Definition end_s : prog unit := for_ s (fun q => lblock (lane_end r s x z W tw f q)).
Definition end_sp : phase := (s, fun q => lblock (lane_end r s x z W tw f q)).

Variable NW : nat -> Prop.
Hypothesis Hr : 0 < r.
Hypothesis Hs : 0 < s.
Hypothesis Htw : forall e, In e tw -> NW e.
Hypothesis Hf : forall vs, length vs = length tw + r -> length (f vs) = r.
Hypothesis HW : disjT W NW z (r * s).
Hypothesis Hxz : disjR x (r * s) z (r * s) \/ z = x.

Let t := dif_lane r 1 s x z W (fun _ => tw) f.
Let HN : r * s = r * 1 * s.
Proof. lia. Qed.
Let Htw' : forall p e, p < 1 -> In e tw -> NW e.
Proof. eauto. Qed.
Let Hf' : forall p vs, p < 1 -> length vs = length tw + r -> length (f vs) = r.
Proof. eauto. Qed.
Let Hxz' : disjR x (r * s) z (r * s) \/ (z = x /\ 1 = 1).
Proof. destruct Hxz; auto. Qed.

Lemma el_eq k : DD 1 s k -> t k = lane_end r s x z W tw f (snd k).
Proof.
  destruct k as [p q]. intros [Hp Hq]. cbn [fst snd] in *. assert (p = 0) by lia. subst p.
  unfold t, dif_lane, lane_core, lane_end. cbn [fst snd]. rewrite Nat.mul_1_l, Nat.mul_0_r, Nat.mul_0_r, Nat.add_0_r. reflexivity.
Qed.
Let t' (k : nat * nat) := lane_end r s x z W tw f (snd k).
Lemma el_ok k : DD 1 s k -> lane_ok (t' k).
Proof. intros Hk. unfold t'. rewrite <- el_eq by auto. apply (dif_lane_ok r 1 s (r * s) NW x z W (fun _ => tw) f); auto. Qed.
Lemma el_disj : Disj (DD 1 s) t'.
Proof.
  assert (H : Disj (DD 1 s) t) by (apply (dif_disj r 1 s (r * s) NW x z W (fun _ => tw) f); auto).
  intros k k' Hk Hk' Hne. unfold t'. rewrite <- !el_eq by auto. apply H; auto.
Qed.
Lemma el_cov : Cov (DD 1 s) t' x (r * s) W NW z (r * s) (dif_fun r 1 s (fun _ => tw) f).
Proof.
  assert (H : Cov (DD 1 s) t x (r * s) W NW z (r * s) (dif_fun r 1 s (fun _ => tw) f)) by (apply dif_cov; auto).
  destruct H as (C1 & C2 & C3). unfold t'. split; [|split].
  - intros k l Hk. rewrite <- el_eq by auto. apply C1. auto.
  - intros k l Hk. rewrite <- el_eq by auto. apply C2. auto.
  - intros i Hi. destruct (C3 i Hi) as (k & j & Hk & H). exists k, j. split; auto. rewrite <- el_eq by auto. exact H.
Qed.

Lemma end_split_v h : s = 2 * h -> Splits ((s + 2 - 1) / 2) (fun i => vblock 2 (fun l => lane_end r s x z W tw f (2 * i + l))) (DD 1 s) t'.
Proof.
  intros Eh. apply (Splits_n h).
  { rewrite Eh, div_up; lia. }
  apply (Splits_end_v 1 s t' el_ok el_disj 2 h); auto; lia.
Qed.
Lemma end_split_1 : Splits s (fun q => lblock (lane_end r s x z W tw f q)) (DD 1 s) t'.
Proof. apply (Splits_end_1 1 s t' el_ok el_disj); auto. Qed.

Lemma end_s_C : Computes end_s x (r * s) W NW (inR z (r * s)) z (r * s) (dif_fun r 1 s (fun _ => tw) f).
Proof. eapply Splits_Computes; [exact end_split_1|exact el_disj|exact el_cov]. Qed.
Lemma end_sp_R : RComputes [end_sp] x (r * s) W NW (inR z (r * s)) z (r * s) (dif_fun r 1 s (fun _ => tw) f).
Proof. eapply Splits_RComputes; [exact end_split_1|exact el_disj|exact el_cov]. Qed.

Hypothesis Hev : s = 1 \/ exists h, s = 2 * h.

Lemma end_v_C : Computes end_v x (r * s) W NW (inR z (r * s)) z (r * s) (dif_fun r 1 s (fun _ => tw) f).
Proof.
  unfold end_v. destruct (2 <=? s) eqn:E2.
  - apply Nat.leb_le in E2. destruct Hev as [->|[h Eh]]; [lia|].
    eapply Splits_Computes; [eapply end_split_v; eauto|exact el_disj|exact el_cov].
  - apply Nat.leb_gt in E2. assert (s = 1) by lia. pose proof end_s_C as HC. unfold end_s in HC.
    replace (lane_end r 1 x z W tw f 0) with (lane_end r s x z W tw f 0) by (rewrite H; reflexivity).
    replace (for_ s (fun q => lblock (lane_end r s x z W tw f q))) with (lblock (lane_end r s x z W tw f 0)) in HC; [exact HC|].
    rewrite H at 2. reflexivity.
Qed.
Lemma end_vp_R : RComputes [end_vp] x (r * s) W NW (inR z (r * s)) z (r * s) (dif_fun r 1 s (fun _ => tw) f).
Proof.
  unfold end_vp. destruct (2 <=? s) eqn:E2.
  - apply Nat.leb_le in E2. destruct Hev as [->|[h Eh]]; [lia|].
    eapply Splits_RComputes; [eapply end_split_v; eauto|exact el_disj|exact el_cov].
  - apply Nat.leb_gt in E2. assert (s = 1) by lia.
    eapply Splits_RComputes; [|exact el_disj|exact el_cov].
    eapply Splits_ext; [|apply (Splits_n s 1); [auto|exact end_split_1]].
    intros i Hi. assert (i = 0) by lia. subst i. cbv beta. rewrite H. reflexivity.
Qed.
End Ends.

(** ** Passes with an arbitrary odd factor k *)
Fixpoint any_sum (k i : nat) (A Wv : nat -> C) (j : nat) : C :=
  match j with
  | O => c0
  | S j' => cadd (any_sum k i A Wv j') (cmul (A j') (Wv ((i * j') mod k)))
  end.

Lemma any_sum_ext k i A A' Wv Wv' J : 0 < k -> (forall j, j < J -> A j = A' j) -> (forall e, e < k -> Wv e = Wv' e) ->
  any_sum k i A Wv J = any_sum k i A' Wv' J.
Proof.
  intros Hk. induction J as [|J IH]; intros HA HW; cbn; auto. rewrite IH by auto. rewrite HA, HW; auto.
  apply Nat.mod_upper_bound. lia.
Qed.

Lemma any_acc_fp i k xa wa J (R W : loc -> Prop) :
  (forall j, j < J -> mul_ok i j = true) -> (forall j, j < J -> R (xa j)) -> (forall j, j < J -> R (wa ((i * j) mod k))) ->
  fp R W (any_acc i k xa wa J).
Proof.
  induction J as [|J IH]; intros H1 H2 H3; [exact I|].
  cbn [any_acc]. apply fp_bind; [apply IH; auto|]. intros z.
  apply fp_bind; [cbn; auto|]. intros a. unfold imul. rewrite H1 by auto. cbn. auto.
Qed.

Lemma any_acc_run i k xa wa J (m : mem C) A Wv : 0 < k ->
  (forall j, j < J -> mul_ok i j = true) -> (forall j, j < J -> m (xa j) = Val (A j)) ->
  (forall j, j < J -> m (wa ((i * j) mod k)) = Val (Wv ((i * j) mod k))) ->
  run (any_acc i k xa wa J) m = Some (any_sum k i A Wv J, m).
Proof.
  intros Hk. induction J as [|J IH]; intros H1 H2 H3; [reflexivity|].
  cbn [any_acc]. rewrite run_bind, IH by auto. rewrite run_bind. cbn. rewrite H2 by auto.
  unfold imul. rewrite H1 by auto. cbn. rewrite H3; auto.
Qed.

Section Any.
Variables (k m s N : nat) (NW : nat -> Prop) (len2 : nat) (x y W : ptr) (wa : nat -> nat) (tw2 : nat -> nat -> list nat) (fin : C -> C -> C).
Hypothesis HN : N = k * m * s.
Hypothesis Hk : 0 < k.
Hypothesis Hm : 0 < m.
Hypothesis Hs : 0 < s.
Hypothesis Hl2 : forall i p, length (tw2 i p) = len2.
Hypothesis Hwa : forall e, e < k -> NW (wa e).
Hypothesis Hw2 : forall i p e, i < k -> p < m -> In e (tw2 i p) -> NW e.
Hypothesis HW : disjT W NW y N.
Hypothesis Hxy : disjR x N y N.
Hypothesis Hmul : forall i j, i < k -> j < k -> mul_ok i j = true.

Definition any_f (i : nat) (vs : list C) : list C :=
  [fin (any_sum k i (fun j => nth (k + len2 + j) vs c0) (fun e => nth e vs c0) k) (nth k vs c0)].
Definition any_tw (i p : nat) : list nat := map wa (seq 0 k) ++ tw2 i p.

Definition any_dec (l : nat) : (nat * nat * nat) * nat := ((l / s / k, l mod s, (l / s) mod k), 0).
Definition any_fun (T X : nat -> C) : nat -> C :=
  gfun k (fun c j => snd (fst c) + s * fst (fst c) + m * s * j) (fun c => any_tw (snd c) (fst (fst c))) (fun c => any_f (snd c)) any_dec c0 T X.

Lemma nth_map_seq {A} (g : nat -> A) n j d : j < n -> nth j (map g (seq 0 n)) d = g j.
Proof. intros H. apply nth_error_nth. apply map_seq_nth_error. auto. Qed.

Lemma any_fun_at T X p q i : q < s -> i < k ->
  any_fun T X (q + s * (i + k * p)) =
  fin (any_sum k i (fun j => X (q + s * p + m * s * j)) (fun e => T (wa e)) k)
      (match tw2 i p with e :: _ => T e | [] => X (q + s * p + m * s * 0) end).
Proof.
  clear HN Hm Hwa Hw2 HW Hxy Hmul. intros Hq Hi. unfold any_fun, gfun, any_dec.
  rewrite (div_lin s q), (mod_lin s q), (div_lin k i), (mod_lin k i) by auto.
  unfold any_f, any_tw. cbn [nth fst snd].
  assert (E1 : forall e, e < k -> nth e (map T (map wa (seq 0 k) ++ tw2 i p) ++ map (fun i0 => X (q + s * p + m * s * i0)) (seq 0 k)) c0 = T (wa e)).
  { intros e He. rewrite map_app, map_map, <- app_assoc, app_nth1 by (rewrite map_length, seq_length; auto). rewrite nth_map_seq; auto. }
  assert (E2 : forall j, j < k -> nth (k + len2 + j) (map T (map wa (seq 0 k) ++ tw2 i p) ++ map (fun i0 => X (q + s * p + m * s * i0)) (seq 0 k)) c0 = X (q + s * p + m * s * j)).
  { intros j Hj. assert (El : length (map T (map wa (seq 0 k) ++ tw2 i p)) = k + len2) by (rewrite map_length, app_length, map_length, seq_length, Hl2; auto).
    rewrite app_nth2 by lia. rewrite El. replace (k + len2 + j - (k + len2)) with j by lia. rewrite nth_map_seq; auto. }
  f_equal.
  - apply any_sum_ext; auto.
  - rewrite map_app, map_map, <- app_assoc.
    rewrite app_nth2 by (rewrite map_length, seq_length; auto). rewrite map_length, seq_length, Nat.sub_diag.
    destruct (tw2 i p); cbn; auto. destruct k; [lia|]. reflexivity.
Qed.

Definition DA (c : nat * nat * nat) : Prop := fst (fst c) < m /\ snd (fst c) < s /\ snd c < k.
Let ri (c : nat * nat * nat) j := snd (fst c) + s * fst (fst c) + m * s * j.
Let wi (c : nat * nat * nat) (j : nat) := snd (fst c) + s * fst (fst c) * k + s * snd c.
Let ltw (c : nat * nat * nat) := any_tw (snd c) (fst (fst c)).
Let lf (c : nat * nat * nat) := any_f (snd c).
Definition any_lane (c : nat * nat * nat) : lane := glane k 1 ri wi ltw lf x y W c.

Lemma any_ri c i : DA c -> i < k -> ri c i < N.
Proof.
  destruct c as [[p q] i0]. unfold DA, ri. cbn [fst snd]. intros (Hp & Hq & Hi0) Hi. subst N.
  assert (q + s * p < m * s) by nia. assert (i + 1 <= k) by lia.
  assert (m * s * (i + 1) <= m * s * k) by (apply Nat.mul_le_mono_l; auto). nia.
Qed.
Lemma any_wi c j : DA c -> j < 1 -> wi c j < N.
Proof.
  destruct c as [[p q] i]. unfold DA, wi. cbn [fst snd]. intros (Hp & Hq & Hi) Hj. subst N.
  assert (s * p * k + s * i + s <= k * s * (p + 1)) by nia.
  assert (k * s * (p + 1) <= k * s * m) by (apply Nat.mul_le_mono_l; lia). nia.
Qed.
Lemma any_inj c j c' j' : DA c -> DA c' -> j < 1 -> j' < 1 -> wi c j = wi c' j' -> c = c' /\ j = j'.
Proof.
  destruct c as [[p q] i], c' as [[p' q'] i']. unfold DA, wi. cbn [fst snd]. intros (Hp & Hq & Hi) (Hp' & Hq' & Hi') Hj Hj' E.
  destruct (divmod_unique s q q' (i + k * p) (i' + k * p')) as [E1 E2]; auto; [nia|].
  destruct (divmod_unique k i i' p p') as [E3 E4]; auto. split; [subst; auto|lia].
Qed.
Lemma any_decok l : l < N -> DA (fst (any_dec l)) /\ snd (any_dec l) < 1 /\ wi (fst (any_dec l)) (snd (any_dec l)) = l.
Proof.
  intros Hl. subst N. destruct (eucl s l Hs) as (q & a & Hq & ->). destruct (eucl k a Hk) as (i & p & Hi & ->).
  unfold any_dec, DA, wi. cbn [fst snd]. rewrite (div_lin s q), (mod_lin s q), (div_lin k i), (mod_lin k i) by auto.
  split; [split; [|auto]|split; [auto|nia]].
  assert (k * p < k * m) by nia. nia.
Qed.
Let ltw_ok c e : DA c -> In e (ltw c) -> NW e.
Proof.
  intros (Hp & Hq & Hi). unfold ltw, any_tw. rewrite in_app_iff, in_map_iff. intros [(e' & <- & He)|He].
  - apply Hwa. apply in_seq in He. lia.
  - eapply Hw2; [| |exact He]; auto.
Qed.
Lemma any_lane_ok c : DA c -> lane_ok (any_lane c).
Proof. intros Hc. apply (glane_ok k 1 ri wi ltw lf x y W DA); auto. apply any_inj. Qed.
Lemma any_disj : Disj DA any_lane.
Proof.
  apply (glane_disj k 1 ri wi ltw lf x y W N N NW DA); auto.
  - apply any_ri.
  - apply any_wi.
  - apply any_inj.
Qed.
Lemma any_cov : Cov DA any_lane x N W NW y N any_fun.
Proof.
  apply (glane_cov k 1 ri wi ltw lf x y W N N NW DA any_dec c0); auto.
  - apply any_ri.
  - apply any_wi.
  - apply any_decok.
Qed.

(** the C++ body for one output *)
Definition any_one (c : nat * nat * nat) : prog unit :=
  let p := fst (fst c) in let q := snd (fst c) in let i := snd c in
  z <- any_acc i k (fun j => x +! (q + s * p + m * s * j)) (fun e => W +! (wa e)) k ;;
  match tw2 i p with
  | [] => store (y +! (q + s * p * k + s * i)) (fin z c0)
  | e :: _ => w <- load (W +! e) ;; store (y +! (q + s * p * k + s * i)) (fin z w)
  end.

Hypothesis Hfin : len2 = 0 -> forall z w w', fin z w = fin z w'.

Lemma any_one_Does c : DA c -> Does (any_one c) (fun c' => c' = c) any_lane.
Proof.
  intros Hc. destruct c as [[p q] i]. pose proof Hc as (Hp & Hq & Hi). cbn [fst snd] in *.
  assert (Hrx : forall j, j < k -> In (x +! (q + s * p + m * s * j)) (rd (any_lane (p, q, i)))).
  { intros j Hj. cbn. apply in_or_app. right. apply in_map_iff. exists j. split; auto. apply in_seq. lia. }
  assert (Hrw : forall e, e < k -> In (W +! wa e) (rd (any_lane (p, q, i)))).
  { intros e He. cbn. apply in_or_app. left. apply in_map. unfold ltw, any_tw. cbn. apply in_or_app. left.
    apply in_map. apply in_seq. lia. }
  assert (Hr2 : forall e r, tw2 i p = e :: r -> In (W +! e) (rd (any_lane (p, q, i)))).
  { intros e r Er. cbn. apply in_or_app. left. apply in_map. unfold ltw, any_tw. cbn. rewrite Er. apply in_or_app. right. left. auto. }
  assert (Hww : wr (any_lane (p, q, i)) = [y +! (q + s * p * k + s * i)]) by reflexivity.
  assert (HWR : forall l, WR (fun c' => c' = (p, q, i)) any_lane l <-> l = y +! (q + s * p * k + s * i)).
  { intros l. split.
    - intros (c & -> & Hl). rewrite Hww in Hl. destruct Hl as [<-|[]]. auto.
    - intros ->. exists (p, q, i). rewrite Hww. split; [auto|left; auto]. }
  split.
  - unfold any_one. cbn [fst snd]. apply fp_bind.
    + apply any_acc_fp; auto.
      * intros j Hj. exists (p, q, i). auto.
      * intros j Hj. exists (p, q, i). split; auto. apply Hrw. apply Nat.mod_upper_bound. lia.
    + intros z. destruct (tw2 i p) as [|e r] eqn:Er; cbn.
      * split; auto. apply HWR. auto.
      * split; [exists (p, q, i); eauto|]. intros w. split; auto. apply HWR. auto.
  - intros mm Hi0 Ha.
    destruct (initd_reads mm (rd (any_lane (p, q, i)))) as [vs Hvs].
    { intros l Hl. apply Hi0. exists (p, q, i). auto. }
    assert (Hlen : length vs = k + len2 + k).
    { apply reads_length in Hvs. rewrite Hvs. cbn. rewrite app_length, !map_length. unfold ltw, any_tw. cbn.
      rewrite app_length, map_length, !seq_length, Hl2. auto. }
    assert (Hnth : forall a l, nth_error (rd (any_lane (p, q, i))) a = Some l -> mm l = Val (nth a vs c0)).
    { intros a l Hal. pose proof Hvs as E. unfold reads in E. apply (f_equal (fun t => nth_error t a)) in E.
      rewrite !nth_error_map, Hal in E. cbn in E.
      destruct (nth_error vs a) as [v|] eqn:Ev; cbn in E; [|discriminate]. injection E as E.
      rewrite E. f_equal. symmetry. apply nth_error_nth. auto. }
    assert (Hrd : rd (any_lane (p, q, i)) = map (fun e => W +! wa e) (seq 0 k) ++ map (fun e => W +! e) (tw2 i p) ++ map (fun j => x +! (q + s * p + m * s * j)) (seq 0 k)).
    { cbn. unfold ltw, any_tw. cbn. rewrite map_app, map_map, <- app_assoc. reflexivity. }
    assert (Hx : forall j, j < k -> mm (x +! (q + s * p + m * s * j)) = Val (nth (k + len2 + j) vs c0)).
    { intros j Hj. apply Hnth. rewrite Hrd. rewrite nth_error_app2; rewrite map_length, seq_length; [|lia].
      rewrite nth_error_app2; rewrite map_length, Hl2; [|lia]. rewrite map_seq_nth_error by lia. repeat f_equal. lia. }
    assert (Hw : forall e, e < k -> mm (W +! wa e) = Val (nth e vs c0)).
    { intros e He. apply Hnth. rewrite Hrd. rewrite nth_error_app1 by (rewrite map_length, seq_length; lia). rewrite map_seq_nth_error by lia. auto. }
    set (yl := y +! (q + s * p * k + s * i)) in *.
    assert (Hyl : mm yl <> Free) by (apply Ha; apply HWR; auto).
    set (z := any_sum k i (fun j => nth (k + len2 + j) vs c0) (fun e => nth e vs c0) k).
    assert (Hacc : run (any_acc i k (fun j => x +! (q + s * p + m * s * j)) (fun e => W +! wa e) k) mm = Some (z, mm)).
    { apply any_acc_run; auto. intros j Hj. apply Hw. apply Nat.mod_upper_bound. lia. }
    exists (upd mm yl (fin z (nth k vs c0))). split; [|split].
    + unfold any_one. cbn [fst snd]. rewrite run_bind, Hacc.
      destruct (tw2 i p) as [|e r] eqn:Er; cbn.
      * pose proof (Hl2 i p) as Hz. rewrite Er in Hz. cbn in Hz. rewrite (Hfin (eq_sym Hz) z c0 (nth k vs c0)).
        fold yl. destruct (mm yl); congruence.
      * rewrite (Hnth k (W +! e)).
        2:{ rewrite Hrd. rewrite nth_error_app2; rewrite map_length, seq_length; [|lia]. rewrite Nat.sub_diag. reflexivity. }
        fold yl. destruct (mm yl); congruence.
    + intros l Hl. apply upd_other. intros ->. apply Hl. apply HWR. auto.
    + intros c -> vs' Hvs' j w Hjw. assert (vs' = vs) by (eapply reads_det; eauto). subst vs'.
      rewrite Hww in Hjw. destruct j as [|[|j]]; cbn in Hjw; try discriminate. injection Hjw as <-.
      exists (fin z (nth k vs c0)). split; [reflexivity|]. apply upd_same.
Qed.

Lemma any_pq_Does p q : p < m -> q < s ->
  Does (for_ k (fun i => any_one (p, q, i))) (fun c => fst (fst c) = p /\ snd (fst c) = q /\ snd c < k) any_lane.
Proof.
  intros Hp Hq. eapply Does_ext; [|apply (Does_for k _ (fun i c => c = (p, q, i)) any_lane)].
  - intros [[a b] i]. cbn. split.
    + intros (i' & Hi' & E). injection E as -> -> ->. auto.
    + intros (-> & -> & Hi). exists i. auto.
  - intros i Hi. apply any_one_Does. split; cbn; auto.
  - intros i j c _ _ Hne -> E. injection E. auto.
  - eapply Disj_sub; [|exact any_disj]. intros c (i & Hi & ->). split; cbn; auto.
Qed.

Lemma any_split_ser : Splits m (fun p => for_ s (fun q => for_ k (fun i => any_one (p, q, i)))) DA any_lane.
Proof.
  apply (Splits_for m (fun p c => fst (fst c) = p /\ snd (fst c) < s /\ snd c < k)).
  - intros p Hp. eapply Does_ext; [|apply (Does_for s _ (fun q c => fst (fst c) = p /\ snd (fst c) = q /\ snd c < k) any_lane)].
    + intros c. split; [intros (q & Hq & H1 & H2 & H3); subst; auto|intros (H1 & H2 & H3); eauto].
    + intros q Hq. apply any_pq_Does; auto.
    + intros i j c _ _ Hne (_ & H1 & _) (_ & H2 & _). lia.
    + eapply Disj_sub; [|exact any_disj]. intros c (q & Hq & H1 & H2 & H3). split; [lia|]. split; lia.
  - intros i j c _ _ Hne (H1 & _) (H2 & _). lia.
  - intros c. unfold DA. split; [intros (H1 & H2 & H3); eauto|intros (p & Hp & H1 & H2 & H3); subst; auto].
Qed.

Lemma any_split_par : Splits (m * s) (fun h => for_ k (fun i => any_one (h / s, h mod s, i))) DA any_lane.
Proof.
  apply (Splits_for (m * s) (fun h c => fst (fst c) = h / s /\ snd (fst c) = h mod s /\ snd c < k)).
  - intros h Hh. apply any_pq_Does.
    + apply Nat.div_lt_upper_bound; lia.
    + apply Nat.mod_upper_bound; lia.
  - intros i j c Hi Hj Hne (H1 & H2 & _) (H3 & H4 & _). apply Hne.
    rewrite (Nat.div_mod i s), (Nat.div_mod j s) by lia. congruence.
  - intros [[p q] i]. unfold DA. cbn [fst snd]. split.
    + intros (H1 & H2 & H3). exists (q + s * p). rewrite div_lin, mod_lin by auto. split; [nia|auto].
    + intros (h & Hh & -> & -> & H3). split; [apply Nat.div_lt_upper_bound; lia|]. split; auto. apply Nat.mod_upper_bound; lia.
Qed.

Lemma any_C : Computes (for_ m (fun p => for_ s (fun q => for_ k (fun i => any_one (p, q, i))))) x N W NW (inR y N) y N any_fun.
Proof. eapply Splits_Computes; [exact any_split_ser|exact any_disj|exact any_cov]. Qed.
Lemma any_R : RComputes [(m * s, fun h => for_ k (fun i => any_one (h / s, h mod s, i)))] x N W NW (inR y N) y N any_fun.
Proof. eapply Splits_RComputes; [exact any_split_par|exact any_disj|exact any_cov]. Qed.

End Any.

(** ** copying *)
Lemma copy_split N (x y : ptr) : disjR y N x N ->
  Splits N (copy_body x y) (fun k => k < N) (fun p => Lane [y +! p] [x +! p] (fun v => v)).
Proof.
  intros Hd. apply (Splits_1 N (fun i => i)).
  - intros i Hi. reflexivity.
  - intros k Hk. split; cbn; [repeat constructor; auto|auto].
  - auto.
  - auto.
  - eauto.
Qed.
Lemma copy_disj N (x y : ptr) : disjR y N x N ->
  Disj (fun k => k < N) (fun p => Lane [y +! p] [x +! p] (fun v : list C => v)).
Proof.
  intros Hd k k' Hk Hk' Hne l [<-|[]]. cbn. split; intros [E|[]].
  - apply (Hd k' k); auto.
  - apply padd_inj in E. lia.
Qed.
Lemma copy_cov N (x y : ptr) W NW : 
  Cov (fun k => k < N) (fun p => Lane [y +! p] [x +! p] (fun v : list C => v)) y N W NW x N (fun T X => X).
Proof.
  split; [|split].
  - intros k l Hk [<-|[]]. left. apply inR_i; auto.
  - intros k l Hk [<-|[]]. apply inR_i; auto.
  - intros i Hi. exists i, 0. split; auto. split; auto. intros m T X Hx _. exists [X i]. split; [|reflexivity].
    unfold reads. cbn. rewrite Hx by auto. auto.
Qed.
Lemma copy_C N (x y : ptr) W NW : disjR y N x N ->
  Computes (for_ N (copy_body x y)) y N W NW (inR x N) x N (fun T X => X).
Proof. intros H. eapply Splits_Computes; [apply copy_split; auto|apply copy_disj; auto|apply copy_cov]. Qed.
Lemma copy_R N (x y : ptr) W NW : disjR y N x N ->
  RComputes [(N, copy_body x y)] y N W NW (inR x N) x N (fun T X => X).
Proof. intros H. eapply Splits_RComputes; [apply copy_split; auto|apply copy_disj; auto|apply copy_cov]. Qed.

End MixedStage.
