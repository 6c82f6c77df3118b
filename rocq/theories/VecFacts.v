(** * Alignment of the 32-byte accesses *)

From Coq Require Import List Arith Bool Lia.
From Verif Require Import Scalar Mem MemFacts Omp OmpFacts Lanes Stage CoreStage Twid KernelFacts MixedDrive Engine ModelMixed ModelMixedClass ModelPow PowDrive PowKern ModelSix SixIndex ModelApi ModelReal ModelBluestein.
From Verif Require Import ModelDif4 ModelDif8 ModelDif16 ModelDit4 ModelDit8 ModelDit16 Vec ModelVec ModelVecApi.
Import ListNotations.

(** the two cells are neighbours and the first one has an even index *)
Definition eptr (p : ptr) : Prop := exists h, snd p = 2 * h.
Definition al (v : ptr * ptr) : Prop := eptr (fst v) /\ snd v = fst v +! 1.

Lemma al_pair p i j h : eptr p -> i = 2 * h -> j = i + 1 -> al (p +! i, p +! j).
Proof.
  intros (k & E) -> ->. split; cbn.
  - exists (k + h). unfold padd. cbn. lia.
  - unfold padd. cbn. f_equal. lia.
Qed.
Lemma eptr_add p i h : eptr p -> i = 2 * h -> eptr (p +! i).
Proof. intros (k & E) ->. exists (k + h). unfold padd. cbn. lia. Qed.

Lemma Forall_vfor {A} (P : A -> Prop) n f : (forall i, i < n -> Forall P (f i)) -> Forall P (vfor n f).
Proof.
  intros H. unfold vfor. apply Forall_forall. intros a Ha. apply in_flat_map in Ha. destruct Ha as (i & Hi & Ha).
  apply in_seq in Hi. specialize (H i ltac:(lia)). rewrite Forall_forall in H. auto.
Qed.
Lemma Forall_vstep {A} (P : A -> Prop) n st f : (forall i, i < (n + st - 1) / st -> Forall P (f (st * i))) -> Forall P (vstep n st f).
Proof. intros H. apply Forall_vfor. auto. Qed.

Lemma combine_map {A B D} (f : A -> B) (g : A -> D) l : combine (map f l) (map g l) = map (fun i => (f i, g i)) l.
Proof. induction l; cbn; [|rewrite IHl]; reflexivity. Qed.
Lemma pairs_map {A} (f : A -> ptr) a b l : pairs (map f (a :: b :: l)) = (f a, f b) :: pairs (map f l).
Proof. reflexivity. Qed.
Lemma pairs_seq (f : nat -> ptr) k : forall n, pairs (map f (seq n (2 * k))) = map (fun i => (f (n + 2 * i), f (n + 2 * i + 1))) (seq 0 k).
Proof.
  induction k as [|k IH]; intros n; [reflexivity|].
  replace (2 * S k) with (S (S (2 * k))) by lia. cbn [seq]. rewrite pairs_map, IH. cbn [map]. f_equal.
  - f_equal; f_equal; lia.
  - rewrite <- seq_shift, map_map. apply map_ext. intros i. f_equal; f_equal; lia.
Qed.
Lemma firstn_pre {A} (a b : list A) n : n = length a -> firstn n (a ++ b) = a.
Proof. intros ->. rewrite firstn_app, Nat.sub_diag, firstn_all. cbn. apply app_nil_r. Qed.
Lemma skipn_pre {A} (a b : list A) n : n = length a -> skipn n (a ++ b) = b.
Proof. intros ->. rewrite skipn_app, Nat.sub_diag, skipn_all. reflexivity. Qed.

Lemma Forall_group_A (P : ptr * ptr -> Prop) L t : (forall h, h < L / 2 -> Forall P (combine (t (2 * h)) (t (2 * h + 1)))) -> Forall P (group Across L t).
Proof. intros H. apply (Forall_vfor P (L / 2) (fun h => combine (t (2 * h)) (t (2 * h + 1)))). auto. Qed.
Lemma Forall_group_W (P : ptr * ptr -> Prop) L t : (forall l, l < L -> Forall P (pairs (t l))) -> Forall P (group Within L t).
Proof. intros H. apply (Forall_vfor P L (fun l => pairs (t l))). auto. Qed.
Lemma Forall_seq {A} (P : A -> Prop) f n k : (forall i, n <= i < n + k -> P (f i)) -> Forall P (map f (seq n k)).
Proof. intros H. apply Forall_map, Forall_forall. intros i Hi. apply in_seq in Hi. auto. Qed.

Section Shapes.
Context {Op : Ops}.
Variables (r m s L : nat) (x y W : ptr).
Hypothesis Hx : eptr x.
Hypothesis Hy : eptr y.
Hypothesis HW : eptr W.
Hypothesis HL : L = 2 * (L / 2).

Lemma half_lt h : h < L / 2 -> 2 * h < L /\ 2 * h + 1 < L.
Proof. lia. Qed.

Lemma vec_core_across nt (t : nat -> lane C) tw f p q h g : nt = length tw -> s = 2 * h -> q = 2 * g ->
  (forall l, l < L -> t l = lane_core r (m * s) s x y W tw f (s * p) (q + l)) ->
  Forall al (vec nt Scalar Across Across L t).
Proof.
  intros -> Hs Hq Ht. unfold vec. apply Forall_app. split; [constructor|]. apply Forall_app. split; apply Forall_group_A; intros e He; apply half_lt in He;
    rewrite !Ht by lia; unfold lane_core, rd, wr; rewrite ?skipn_pre by (rewrite map_length; reflexivity); rewrite combine_map; apply Forall_seq; intros i _.
  - apply (al_pair x _ _ (g + e + h * p + m * h * i)); auto; subst; lia.
  - apply (al_pair y _ _ (g + e + r * (h * p) + h * i)); auto; subst; lia.
Qed.
Lemma vec_dit_across nt (t : nat -> lane C) tw f p q h g : nt = length tw -> s = 2 * h -> q = 2 * g ->
  (forall l, l < L -> t l = lane_dit r (m * s) s y x W tw f (s * p) (q + l)) ->
  Forall al (vec nt Scalar Across Across L t).
Proof.
  intros -> Hs Hq Ht. unfold vec. apply Forall_app. split; [constructor|]. apply Forall_app. split; apply Forall_group_A; intros e He; apply half_lt in He;
    rewrite !Ht by lia; unfold lane_dit, rd, wr; rewrite ?skipn_pre by (rewrite map_length; reflexivity); rewrite combine_map; apply Forall_seq; intros i _.
  - apply (al_pair y _ _ (g + e + r * (h * p) + h * i)); auto; subst; lia.
  - apply (al_pair x _ _ (g + e + h * p + m * h * i)); auto; subst; lia.
Qed.

(** the first (s = 1) pass: the twiddles of the two lanes are neighbours, too *)
Definition twal (tw : nat -> list nat) (nt p : nat) : Prop := exists g : nat -> nat,
  forall l, l < 2 -> tw (p + l) = map (fun k => g k + l) (seq 0 nt) /\ forall k, k < nt -> exists h, g k = 2 * h.
Lemma vec_tw nt (t : nat -> list ptr) tw p : twal tw nt p -> (forall l, l < 2 -> t l = map (fun k => W +! k) (tw (p + l))) ->
  Forall al (group Across 2 t).
Proof.
  intros (g & Hg) Ht. apply Forall_group_A. intros h Hh. change (2 / 2) with 1 in Hh. assert (h = 0) as -> by lia.
  rewrite !Ht by lia. destruct (Hg (2 * 0)) as [E0 Ev]; [lia|]. destruct (Hg (2 * 0 + 1)) as [E1 _]; [lia|].
  rewrite E0, E1, !map_map, combine_map. apply Forall_seq. intros k Hk.
  destruct (Ev k) as (e & He); [lia|]. apply (al_pair W _ _ e); auto; lia.
Qed.
Lemma vec_core_first nt (t : nat -> lane C) tw f p h g : r = 2 * (r / 2) -> m = 2 * h -> p = 2 * g -> twal tw nt p ->
  (forall l, l < 2 -> t l = lane_core r (m * 1) 1 x y W (tw (p + l)) f (1 * (p + l)) 0) ->
  Forall al (vec nt Across Across Within 2 t).
Proof.
  intros Hr Hm Hp Htw Ht. assert (Hl : forall l, l < 2 -> length (tw (p + l)) = nt).
  { intros l Hl. destruct Htw as (g' & Hg). destruct (Hg l Hl) as [-> _]. rewrite map_length, seq_length. reflexivity. }
  unfold vec. apply Forall_app. split; [|apply Forall_app; split].
  - apply (vec_tw nt _ tw p); auto. intros l Hl'. rewrite Ht by auto. unfold lane_core, rd. apply firstn_pre. rewrite map_length, Hl; auto.
  - apply Forall_group_A. intros e He. change (2 / 2) with 1 in He. assert (e = 0) as -> by lia.
    rewrite !Ht by lia. unfold lane_core, rd. rewrite !skipn_pre by (rewrite map_length, Hl by lia; reflexivity). rewrite combine_map. apply Forall_seq. intros i _.
    apply (al_pair x _ _ (g + h * i)); auto; subst; lia.
  - apply Forall_group_W. intros l Hl'. rewrite Ht by lia. unfold lane_core, wr. rewrite Hr, pairs_seq. apply Forall_seq. intros i _.
    set (r2 := r / 2) in *. apply (al_pair y _ _ (r2 * (p + l) + i)); auto; try lia; try (rewrite Hr; lia).
Qed.
Lemma vec_dit_first nt (t : nat -> lane C) tw f p h g : r = 2 * (r / 2) -> m = 2 * h -> p = 2 * g -> twal tw nt p ->
  (forall l, l < 2 -> t l = lane_dit r (m * 1) 1 y x W (tw (p + l)) f (1 * (p + l)) 0) ->
  Forall al (vec nt Across Within Across 2 t).
Proof.
  intros Hr Hm Hp Htw Ht. assert (Hl : forall l, l < 2 -> length (tw (p + l)) = nt).
  { intros l Hl. destruct Htw as (g' & Hg). destruct (Hg l Hl) as [-> _]. rewrite map_length, seq_length. reflexivity. }
  unfold vec. apply Forall_app. split; [|apply Forall_app; split].
  - apply (vec_tw nt _ tw p); auto. intros l Hl'. rewrite Ht by auto. unfold lane_dit, rd. apply firstn_pre. rewrite map_length, Hl; auto.
  - apply Forall_group_W. intros l Hl'. rewrite Ht by lia. unfold lane_dit, rd. rewrite !skipn_pre by (rewrite map_length, Hl by lia; reflexivity).
    rewrite Hr, pairs_seq. apply Forall_seq. intros i _.
    set (r2 := r / 2) in *. apply (al_pair y _ _ (r2 * (p + l) + i)); auto; try lia; try (rewrite Hr; lia).
  - apply Forall_group_A. intros e He. change (2 / 2) with 1 in He. assert (e = 0) as -> by lia.
    rewrite !Ht by lia. unfold lane_dit, wr. rewrite combine_map. apply Forall_seq. intros i _.
    apply (al_pair x _ _ (g + h * i)); auto; subst; lia.
Qed.
End Shapes.

Lemma twal_s r m h p g : m = 2 * h -> p = 2 * g -> twal (tw_s r m 1) (r - 1) p.
Proof.
  intros Hm Hp. exists (fun k => p + k * m). intros l Hl. split.
  - rewrite tw_s_1, <- seq_shift, map_map. apply map_ext. intros k. replace (S k - 1) with k by lia. lia.
  - intros k Hk. exists (g + k * h). subst. lia.
Qed.
Lemma twal_o p g : p = 2 * g -> twal (tw_o 1) 1 p.
Proof.
  intros Hp. exists (fun _ => p). intros l Hl. split.
  - unfold tw_o. cbn [map seq]. f_equal. lia.
  - intros k Hk. exists g. auto.
Qed.

Section Kernels.
Context {Op : Ops}.

Ltac hd t := match t with ?f _ => hd f | _ => t end.
Ltac addrs := cbn [map seq Nat.sub]; cbn [app]; repeat (apply (f_equal2 cons); [unfold twid, twidT; rewrite ?ptr_add, ?quot1 by lia; apply ptr_eq; lia|]); reflexivity.
Ltac laneq :=
  match goal with |- ?l = ?R =>
   let h := hd l in unfold h, lane_core, lane_dit; rewrite ?quot, ?quot1 by lia; cbv zeta; apply mk_lane; addrs end.
Ltac va_unf := match goal with |- Forall al ?v => let h := hd v in unfold h end; cbv zeta; rewrite ?quot1, ?flat_n, ?flat_h by lia.

Lemma core_al o a inv m h s x y W : m = 2 * h -> four_or_1 s -> eptr x -> eptr y -> eptr W ->
  Forall al (core_va o a inv W (radix a * m) s x y).
Proof.
  intros Hm Hs Hx Hy HW.
  assert (E4 : forall h', (4 * h' =? 1) = false) by (intros; apply Nat.eqb_neq; lia).
  assert (H2 : 2 = 2 * (2 / 2)) by reflexivity. assert (H4 : 4 = 2 * (4 / 2)) by reflexivity.
  destruct Hs as [-> | (h' & -> & Hh')].
  - destruct a, o; cbn [core_va radix];
    match goal with |- Forall al ?v => let c := hd v in unfold c end; cbn [Nat.eqb]; destruct inv; va_unf; apply Forall_vstep; intros i _;
    match goal with
    | |- Forall al (vec _ Across Across Within _ ?t) => match t with context [?r * m] =>
        eapply (vec_core_first r m 2 x y W Hx Hy HW eq_refl _ _ _ _ (2 * i) h i); [reflexivity|exact Hm|reflexivity| |] end
    | |- Forall al (vec _ Across Within Across _ ?t) => match t with context [?r * m] =>
        eapply (vec_dit_first r m 2 x y W Hx Hy HW eq_refl _ _ _ _ (2 * i) h i); [reflexivity|exact Hm|reflexivity| |] end end;
    match goal with
      | |- twal _ 1 _ => exact (twal_o (2 * i) i eq_refl)
      | |- twal _ 3 _ => exact (twal_s 4 m h (2 * i) i Hm eq_refl)
      | |- twal _ 7 _ => exact (twal_s 8 m h (2 * i) i Hm eq_refl)
      | |- twal _ 15 _ => exact (twal_s 16 m h (2 * i) i Hm eq_refl)
      | |- _ => intros l _; rewrite ?tw_s_1; unfold tw_o; laneq end.
  - destruct a, o; cbn [core_va radix];
    match goal with |- Forall al ?v => let c := hd v in unfold c end; rewrite E4; destruct inv; va_unf; apply Forall_vfor; intros i _; try (apply Forall_vstep; intros j _);
    match goal with
    | |- Forall al (vec _ _ _ _ ?L ?t) => match t with context [?r * m] =>
        first [ eapply (vec_core_across r m (4 * h') L x y W Hx Hy eq_refl _ _ (map (fun k => r * (4 * h' * (i)) + (r * m * (4 * h') + k)) (seq 1 (r - 1))) _ (i) (4 * j) (2 * h') (2 * j)); [reflexivity|lia|lia|intros l _; laneq]
              | eapply (vec_core_across r m (4 * h') L x y W Hx Hy eq_refl _ _ (map (fun k => r * (4 * h' * (i)) + (r * m * (4 * h') + k)) (seq 1 (r - 1))) _ (i) (2 * j) (2 * h') (j)); [reflexivity|lia|lia|intros l _; laneq]
              | eapply (vec_core_across r m (4 * h') L x y W Hx Hy eq_refl _ _ [4 * h' * (i / h')] _ (i / h') (i mod h' * 4) (2 * h') (2 * (i mod h'))); [reflexivity|lia|lia|intros l _; laneq]
              | eapply (vec_dit_across r m (4 * h') L x y W Hx Hy eq_refl _ _ (map (fun k => r * (4 * h' * (i)) + (r * m * (4 * h') + k)) (seq 1 (r - 1))) _ (i) (4 * j) (2 * h') (2 * j)); [reflexivity|lia|lia|intros l _; laneq]
              | eapply (vec_dit_across r m (4 * h') L x y W Hx Hy eq_refl _ _ (map (fun k => r * (4 * h' * (i)) + (r * m * (4 * h') + k)) (seq 1 (r - 1))) _ (i) (2 * j) (2 * h') (j)); [reflexivity|lia|lia|intros l _; laneq]
              | eapply (vec_dit_across r m (4 * h') L x y W Hx Hy eq_refl _ _ [4 * h' * (i / h')] _ (i / h') (i mod h' * 4) (2 * h') (2 * (i mod h'))); [reflexivity|lia|lia|intros l _; laneq] ] end end.
Qed.

Lemma end_al o a inv mode n s eo x y : ends n -> n <= radix a -> four_or_1 s -> eptr x -> eptr y ->
  Forall al (fin_va o a inv mode n s eo x y).
Proof.
  intros Hn Hle Hs Hx Hy.
  assert (E4 : forall h', (4 * h' =? 1) = false) by (intros; apply Nat.eqb_neq; lia).
  assert (Hz : eptr (if eo then y else x)) by (destruct eo; auto).
  destruct Hs as [-> | (h' & -> & Hh')].
  - destruct a, o; destruct Hn as [-> | [-> | [-> | ->]]]; cbn [radix] in Hle; try (exfalso; clear - Hle; lia); clear Hle;
    cbv beta iota delta [fin_va Nat.eqb dif4_end_va dif8_end_va dif16_end_va dit4_end_va dit8_end_va dit16_end_va
      dif4o_end_va dif8o_end_va dif16o_end_va dit4o_end_va dit8o_end_va dit16o_end_va]; destruct inv; va_unf; constructor.
  - destruct a, o; destruct Hn as [-> | [-> | [-> | ->]]]; cbn [radix] in Hle; try (exfalso; clear - Hle; lia); clear Hle;
    cbv beta iota delta [fin_va dif4_end_va dif8_end_va dif16_end_va dit4_end_va dit8_end_va dit16_end_va
      dif4o_end_va dif8o_end_va dif16o_end_va dit4o_end_va dit8o_end_va dit16o_end_va]; rewrite E4; cbn [Nat.eqb]; destruct inv; va_unf;
    apply Forall_vstep; intros j _;
    first [ eapply (vec_core_across 16 1 (4 * h') 2 x (if eo then y else x) x Hx Hz eq_refl _ _ [] _ 0 (2 * j) (2 * h') j); [reflexivity|lia|lia|intros l _; laneq]
          | eapply (vec_core_across 16 1 (4 * h') 2 (if eo then y else x) x x Hz Hx eq_refl _ _ [] _ 0 (2 * j) (2 * h') j); [reflexivity|lia|lia|intros l _; laneq]
          | eapply (vec_core_across 8 1 (4 * h') 2 x (if eo then y else x) x Hx Hz eq_refl _ _ [] _ 0 (2 * j) (2 * h') j); [reflexivity|lia|lia|intros l _; laneq]
          | eapply (vec_core_across 8 1 (4 * h') 2 (if eo then y else x) x x Hz Hx eq_refl _ _ [] _ 0 (2 * j) (2 * h') j); [reflexivity|lia|lia|intros l _; laneq]
          | eapply (vec_core_across 4 1 (4 * h') 2 x (if eo then y else x) x Hx Hz eq_refl _ _ [] _ 0 (2 * j) (2 * h') j); [reflexivity|lia|lia|intros l _; laneq]
          | eapply (vec_core_across 4 1 (4 * h') 2 (if eo then y else x) x x Hz Hx eq_refl _ _ [] _ 0 (2 * j) (2 * h') j); [reflexivity|lia|lia|intros l _; laneq]
          | eapply (vec_core_across 2 1 (4 * h') 2 x (if eo then y else x) x Hx Hz eq_refl _ _ [] _ 0 (2 * j) (2 * h') j); [reflexivity|lia|lia|intros l _; laneq]
          | eapply (vec_core_across 2 1 (4 * h') 2 (if eo then y else x) x x Hz Hx eq_refl _ _ [] _ 0 (2 * j) (2 * h') j); [reflexivity|lia|lia|intros l _; laneq] ].
Qed.
End Kernels.
