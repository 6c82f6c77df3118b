(** * What the six-step passes compute (any arithmetic) *)

From Coq Require Import List Arith ZArith Bool Lia.
From Verif Require Import Scalar Mem MemFacts Omp OmpFacts Lanes Stage CoreStage Twid Object ObjectFacts Engine Steps MixedDrive ModelPow PowDrive PowKern PowRun ModelSix SixIndex.
Import ListNotations.

Lemma mod2_0 u : (2 * u + 0) mod 2 = 0.
Proof. replace (2 * u + 0) with (0 + u * 2) by lia. rewrite Nat.mod_add by lia. reflexivity. Qed.
Lemma mod2_1 u : (2 * u + 1) mod 2 = 1.
Proof. replace (2 * u + 1) with (1 + u * 2) by lia. rewrite Nat.mod_add by lia. reflexivity. Qed.
Lemma div2_0 u : (2 * u + 0) / 2 = u.
Proof. rewrite Nat.add_0_r. apply half_2. Qed.

Ltac leaf := first [reflexivity | lia | apply f_equal; leaf | apply f_equal2; leaf].
Ltac leq := repeat match goal with |- _ :: _ = _ :: _ => apply (f_equal2 (@cons _)) end; leaf.

Section SixRun.
Context {Op : Ops}.
Notation mem := (mem C).
Notation prog := (prog C).

Definition cell2 (n r c : nat) : nat := r + c * n.
Lemma cell2_inj n r c r' c' : r < n -> r' < n -> cell2 n r c = cell2 n r' c' -> r = r' /\ c = c'.
Proof. unfold cell2. intros H H' E. rewrite (Nat.mul_comm c), (Nat.mul_comm c') in E. eapply divmod_unique; eauto. Qed.
Lemma cell2_lt n r c : r < n -> c < n -> cell2 n r c < n * n.
Proof. unfold cell2. nia. Qed.
Lemma cell2_div n r c : r < n -> cell2 n r c / n = c.
Proof. unfold cell2. rewrite Nat.mul_comm. apply div_lin. Qed.
Lemma cell2_mod n r c : r < n -> cell2 n r c mod n = r.
Proof. unfold cell2. rewrite Nat.mul_comm. apply mod_lin. Qed.
Lemma cell2_dec n e : e < n * n -> exists r c, r < n /\ c < n /\ e = cell2 n r c.
Proof.
  intros H. assert (0 < n) by nia. destruct (eucl n e H0) as (r & c & Hr & ->). exists r, c. unfold cell2. repeat split; [auto|nia|lia].
Qed.

(** transposition of an n x n matrix *)
Definition trF (n : nat) (X : nat -> C) (e : nat) : C := X (cell2 n (e / n) (e mod n)).
(** the transform F applied to every row *)
Definition rowsF (n : nat) (F : (nat -> C) -> nat -> C) (X : nat -> C) (e : nat) : C := F (fun j => X (e / n * n + j)) (e mod n).
(** multiplication by the twiddle factors, with transposition *)
Definition wsel (m r c : nat) : nat :=
  if c / 2 <? r / 2 then 4 * wnxn_i m (2 * (c / 2)) (2 * (r / 2)) + r mod 2 + 2 * (c mod 2)
  else 4 * wnxn_i m (2 * (r / 2)) (2 * (c / 2)) + c mod 2 + 2 * (r mod 2).
Definition sw (inv : bool) (N : nat) (mode : smode) (w : C) : C := scalepz N mode (if inv then cconj w else w).
Definition mulF (inv : bool) (N : nat) (mode : smode) (n : nat) (T X : nat -> C) (e : nat) : C :=
  cmul (sw inv N mode (T (wsel (n / 2) (e mod n) (e / n)))) (X (cell2 n (e / n) (e mod n))).

Lemma trF_cell n X r c : r < n -> trF n X (cell2 n r c) = X (cell2 n c r).
Proof. intros H. unfold trF. rewrite cell2_div, cell2_mod by auto. reflexivity. Qed.
Lemma mulF_cell inv N mode n T X r c : r < n -> mulF inv N mode n T X (cell2 n r c) = cmul (sw inv N mode (T (wsel (n / 2) r c))) (X (cell2 n c r)).
Proof. intros H. unfold mulF. rewrite cell2_div, cell2_mod by auto. reflexivity. Qed.

Lemma wsel_up m u v d e : u <= v -> d < 2 -> e < 2 -> wsel m (2 * u + e) (2 * v + d) = 4 * wnxn_i m (2 * u) (2 * v) + d + 2 * e.
Proof.
  intros Hu Hd He. unfold wsel.
  assert (Ev : (2 * v + d) / 2 = v /\ (2 * v + d) mod 2 = d) by (destruct d as [|[|]]; [|auto using half_21, mod2_1|lia]; auto using div2_0, mod2_0).
  assert (Eu : (2 * u + e) / 2 = u /\ (2 * u + e) mod 2 = e) by (destruct e as [|[|]]; [|auto using half_21, mod2_1|lia]; auto using div2_0, mod2_0).
  destruct Ev as [-> ->], Eu as [-> ->]. destruct (Nat.ltb_spec v u); [lia|]. reflexivity.
Qed.
Lemma wsel_lo m u v d e : u < v -> d < 2 -> e < 2 -> wsel m (2 * v + d) (2 * u + e) = 4 * wnxn_i m (2 * u) (2 * v) + d + 2 * e.
Proof.
  intros Hu Hd He. unfold wsel.
  assert (Ev : (2 * v + d) / 2 = v /\ (2 * v + d) mod 2 = d) by (destruct d as [|[|]]; [|auto using half_21, mod2_1|lia]; auto using div2_0, mod2_0).
  assert (Eu : (2 * u + e) / 2 = u /\ (2 * u + e) mod 2 = e) by (destruct e as [|[|]]; [|auto using half_21, mod2_1|lia]; auto using div2_0, mod2_0).
  destruct Ev as [-> ->], Eu as [-> ->]. destruct (Nat.ltb_spec u v); [|lia]. reflexivity.
Qed.

(** ** blocks *)
Definition offc (n a b : nat) : list nat :=
  [cell2 n (a + 0) (b + 1); cell2 n (a + 1) (b + 1); cell2 n (a + 0) (b + 0); cell2 n (a + 1) (b + 0);
   cell2 n (b + 0) (a + 1); cell2 n (b + 1) (a + 1); cell2 n (b + 0) (a + 0); cell2 n (b + 1) (a + 0)].
Definition tr_es (n u v : nat) : list nat :=
  if u =? v then [cell2 n (2 * u + 0) (2 * u + 1); cell2 n (2 * u + 1) (2 * u + 0)] else offc n (2 * u) (2 * v).
Definition mul_es (n u v : nat) : list nat :=
  if u =? v then [cell2 n (2 * u + 0) (2 * u + 1); cell2 n (2 * u + 1) (2 * u + 1); cell2 n (2 * u + 0) (2 * u + 0); cell2 n (2 * u + 1) (2 * u + 0)]
  else offc n (2 * u) (2 * v).

Definition inblk (u v r c : nat) : Prop := (r / 2 = u /\ c / 2 = v) \/ (r / 2 = v /\ c / 2 = u).

Lemma off_in n m u v e : n = 2 * m -> u <= v -> v < m -> In e (offc n (2 * u) (2 * v)) ->
  exists r c, r < n /\ c < n /\ e = cell2 n r c /\ inblk u v r c.
Proof.
  intros Hn Hu Hv. unfold offc, inblk. cbn [In].
  intros H. repeat destruct H as [<-|H]; try destruct H;
    (eexists _, _; split; [|split; [|split; [reflexivity|rewrite ?div2_0, ?half_21; auto]]]; lia).
Qed.
Lemma mul_in n m u v e : n = 2 * m -> u <= v -> v < m -> In e (mul_es n u v) ->
  exists r c, r < n /\ c < n /\ e = cell2 n r c /\ inblk u v r c.
Proof.
  intros Hn Hu Hv. unfold mul_es. destruct (Nat.eqb_spec u v) as [->|Hne]; [|eapply off_in; eauto].
  cbn [In]. intros H. unfold inblk. repeat destruct H as [<-|H]; try destruct H;
    (eexists _, _; split; [|split; [|split; [reflexivity|rewrite ?div2_0, ?half_21; auto]]]; lia).
Qed.
Lemma tr_mul n u v e : In e (tr_es n u v) -> In e (mul_es n u v).
Proof. unfold tr_es, mul_es. destruct (u =? v); auto. cbn [In]. tauto. Qed.
Lemma mul_lt n m u v e : n = 2 * m -> u <= v -> v < m -> In e (mul_es n u v) -> e < n * n.
Proof. intros Hn Hu Hv H. destruct (mul_in n m u v e Hn Hu Hv H) as (r & c & H1 & H2 & -> & _). apply cell2_lt; auto. Qed.

Lemma mul_disj n m u v u' v' e : n = 2 * m -> u <= v -> v < m -> u' <= v' -> v' < m ->
  In e (mul_es n u v) -> In e (mul_es n u' v') -> u = u' /\ v = v'.
Proof.
  intros Hn H1 H2 H3 H4 Hi Hi'. destruct (mul_in n m u v e Hn H1 H2 Hi) as (r & c & Hr & Hc & E & B).
  destruct (mul_in n m u' v' e Hn H3 H4 Hi') as (r' & c' & Hr' & Hc' & E' & B').
  rewrite E in E'. apply cell2_inj in E' as [-> ->]; auto. unfold inblk in *. lia.
Qed.

Lemma bit_cases r : exists e, e < 2 /\ r = 2 * (r / 2) + e.
Proof. exists (r mod 2). split; [apply Nat.mod_upper_bound; lia|]. apply Nat.div_mod. lia. Qed.
Lemma mul_cov n m r c : n = 2 * m -> r < n -> c < n -> exists u v, u <= v /\ v < m /\ In (cell2 n r c) (mul_es n u v).
Proof.
  intros Hn Hr Hc. destruct (bit_cases r) as (d & Hd & Er), (bit_cases c) as (e & He & Ec).
  assert (Hi : forall a b, a < m -> b < m -> a <= b \/ b <= a) by lia.
  set (a := r / 2) in *. set (b := c / 2) in *. clearbody a b. subst r c.
  exists (Nat.min a b), (Nat.max a b). split; [lia|]. split; [lia|].
  unfold mul_es. destruct (Nat.eqb_spec (Nat.min a b) (Nat.max a b)) as [E|Hne].
  - assert (a = b) by lia. subst b. rewrite Nat.min_id. cbn [In]. destruct d as [|[|]]; [| |lia]; (destruct e as [|[|]]; [| |lia]); tauto.
  - unfold offc. destruct (le_lt_dec a b).
    + rewrite Nat.min_l, Nat.max_r by lia. cbn [In]. destruct d as [|[|]]; [| |lia]; (destruct e as [|[|]]; [| |lia]); tauto.
    + rewrite Nat.min_r, Nat.max_l by lia. cbn [In]. destruct d as [|[|]]; [| |lia]; (destruct e as [|[|]]; [| |lia]); tauto.
Qed.

Section Fixed.
Variables (n m : nat) (x : ptr).
Hypothesis Hn : n = 2 * m.
Hypothesis Hm : 0 < m.
Hypothesis H12 : n <= 2 ^ 12.
Notation N := (n * n).
Notation L := (six_L n).
Notation iv := (six_iv n).

Lemma iv_row u v : u <= v -> v < m -> iv (wnxn_i m (2 * u) (2 * v)) = Some (2 * u, 2 * v).
Proof. intros H1 H2. rewrite Hn. apply six_iv_at; auto. rewrite <- Hn. auto. Qed.

(** the block of position i *)
Definition blk (i : nat) : nat * nat := match iv i with Some (p, k) => (p / 2, k / 2) | None => (0, 0) end.
Lemma blk_at u v : u <= v -> v < m -> blk (wnxn_i m (2 * u) (2 * v)) = (u, v).
Proof. intros H1 H2. unfold blk. rewrite iv_row by auto. rewrite !half_2. reflexivity. Qed.
Lemma idx_lt' u v : u <= v -> v < m -> wnxn_i m (2 * u) (2 * v) < L.
Proof. intros. rewrite Hn. apply idx_lt; auto. Qed.
Lemma idx_dec' i : i < L -> exists u v, u <= v /\ v < m /\ i = wnxn_i m (2 * u) (2 * v) /\ iv i = Some (2 * u, 2 * v) /\ blk i = (u, v).
Proof.
  intros Hi. assert (Hi' : i < six_L (2 * m)) by (rewrite <- Hn; auto). destruct (idx_decode m i Hi') as (u & v & H1 & H2 & ->).
  exists u, v. repeat split; auto using iv_row, blk_at.
Qed.

Section M0.
Variables (m0 : mem) (X : nat -> C).
Hypothesis Hh : holds m0 x N X.

Lemma holds_cell e : e < N -> m0 (x +! e) = Val (X e).
Proof. apply Hh. Qed.

(** transpose *)
Lemma tr_step u v : u <= v -> v < m ->
  exists mi, Step (transpose_kernel n (2 * u) (2 * v) x) (fun _ => False) (fun l => In l (map (padd x) (tr_es n u v))) m0 mi /\
    forall e, In e (tr_es n u v) -> mi (x +! e) = Val (trF n X e).
Proof.
  intros Hu Hv.
  assert (Hlt : forall e, In e (tr_es n u v) -> e < N) by (intros e He; apply (mul_lt n m u v); auto using tr_mul).
  unfold transpose_kernel. destruct (Nat.eqb_spec (2 * u) (2 * v)) as [E|E].
  - assert (u = v) by lia. subst v. cbv zeta.
    destruct (block_step x [x +! (2 * u + 2 * u * n + 1); x +! (2 * u + 2 * u * n + n)] (tr_es n u u)
      (fun v => match v with [x12; x21] => [x12; x21] | _ => [] end)
      [X (2 * u + 2 * u * n + 1); X (2 * u + 2 * u * n + n)] (trF n X) m0) as (mi & HS & Hv').
    + unfold reads. cbn [map]. rewrite !holds_cell by nia. reflexivity.
    + unfold tr_es. rewrite Nat.eqb_refl. cbn [map]. rewrite !trF_cell by lia. unfold cell2. leq.
    + intros e He. rewrite holds_cell by auto. discriminate.
    + exists mi. split; auto.
      assert (Ew : map (padd x) (tr_es n u u) = [x +! (2 * u + 2 * u * n + n); x +! (2 * u + 2 * u * n + 1)]).
      { unfold tr_es. rewrite Nat.eqb_refl. cbn [map]. unfold cell2. leq. }
      rewrite Ew in *. destruct HS as (D & Hr). split; auto. eapply dfp_mono; [| |exact D]; cbn [In]; tauto.
  - assert (Euv : u <> v) by lia. cbv zeta. set (k := 2 * u) in *. set (p := 2 * v) in *.
    destruct (block_step x [x +! (p + k * n + 0); x +! (p + k * n + 0 + 1); x +! (p + k * n + n); x +! (p + k * n + n + 1);
       x +! (k + p * n + 0); x +! (k + p * n + 0 + 1); x +! (k + p * n + n); x +! (k + p * n + n + 1)] (tr_es n u v)
      (fun v => match v with
       | [a; b; A; B; c; C; d; D] => [b; B; a; A; C; D; c; d]
       | _ => [] end)
      [X (p + k * n + 0); X (p + k * n + 0 + 1); X (p + k * n + n); X (p + k * n + n + 1);
       X (k + p * n + 0); X (k + p * n + 0 + 1); X (k + p * n + n); X (k + p * n + n + 1)] (trF n X) m0) as (mi & HS & Hv').
    + unfold reads. cbn [map]. rewrite !holds_cell by nia. reflexivity.
    + unfold tr_es. destruct (Nat.eqb_spec u v); [contradiction|]. fold k p. unfold offc. cbn [map]. rewrite !trF_cell by lia. unfold cell2. leq.
    + intros e He. rewrite holds_cell by auto. discriminate.
    + exists mi. split; auto.
      assert (Ew : map (padd x) (tr_es n u v) = [x +! (k + p * n + n); x +! (k + p * n + n + 1); x +! (k + p * n + 0); x +! (k + p * n + 0 + 1);
       x +! (p + k * n + n); x +! (p + k * n + n + 1); x +! (p + k * n + 0); x +! (p + k * n + 0 + 1)]).
      { unfold tr_es. destruct (Nat.eqb_spec u v); [contradiction|]. fold k p. unfold offc. cbn [map]. unfold cell2. leq. }
      rewrite Ew in *. destruct HS as (D & Hr). split; auto. eapply dfp_mono; [| |exact D]; cbn [In]; tauto.
Qed.

Definition no (l : loc) : Prop := False.

Lemma tr_loop : exists m', Loop L (six_tr iv n x) no (inR x N) m0 m' /\ holds m' x N (trF n X).
Proof.
  destruct (cells_loop L (six_tr iv n x) x (fun i => tr_es n (fst (blk i)) (snd (blk i))) (fun _ _ => False) (trF n X) m0) as (m' & HL & Hv).
  - intros i Hi. destruct (idx_dec' i Hi) as (u & v & H1 & H2 & _ & Hiv & Eb). rewrite Eb. cbn [fst snd].
    unfold six_tr, iv_get. rewrite Hiv. apply tr_step; auto.
  - intros i j e Hi Hj Hne Hin. split; [|auto]. intros Hin'.
    destruct (idx_dec' i Hi) as (u & v & H1 & H2 & Ei & _ & Eb). destruct (idx_dec' j Hj) as (u' & v' & H1' & H2' & Ej & _ & Eb').
    rewrite Eb in Hin. rewrite Eb' in Hin'. cbn [fst snd] in *.
    destruct (mul_disj n m u v u' v' e) as [-> ->]; auto using tr_mul. congruence.
  - exists m'. split.
    + eapply Loop_mono; [| |exact HL].
      * intros l (i & _ & []).
      * intros l (i & Hi & Hl). destruct (idx_dec' i Hi) as (u & v & H1 & H2 & _ & _ & Eb). rewrite Eb in Hl. cbn [fst snd] in Hl.
        apply in_map_iff in Hl as (e & <- & He). apply inR_i. apply (mul_lt n m u v); auto using tr_mul.
    + intros e He. destruct (cell2_dec n e He) as (r & c & Hr & Hc & ->).
      destruct (Nat.eq_dec r c) as [->|Hrc].
      * (* diagonal element: never written *)
        rewrite trF_cell by auto. destruct (Loop_chg _ _ _ _ _ _ HL) as [Hf _]. rewrite Hf; [apply holds_cell; auto|].
        intros (i & Hi & Hl). destruct (idx_dec' i Hi) as (u & v & H1 & H2 & _ & _ & Eb). rewrite Eb in Hl. cbn [fst snd] in Hl.
        apply in_map_iff in Hl as (e' & E & He'). apply padd_inj in E. subst e'. unfold tr_es in He'.
        destruct (Nat.eqb_spec u v) as [->|Hne].
        -- cbn [In] in He'. destruct He' as [E|[E|[]]]; apply cell2_inj in E; lia.
        -- unfold offc in He'. cbn [In] in He'. repeat destruct He' as [E|He']; try (apply cell2_inj in E; lia). destruct He'.
      * destruct (mul_cov n m r c Hn Hr Hc) as (u & v & H1 & H2 & Hin). apply (Hv (wnxn_i m (2 * u) (2 * v))); [apply idx_lt'; auto|].
        rewrite blk_at by auto. cbn [fst snd]. unfold tr_es, mul_es in *. destruct (Nat.eqb_spec u v) as [->|Hne]; auto.
        cbn [In] in Hin |- *. destruct Hin as [E|[E|[E|[E|[]]]]]; auto; apply cell2_inj in E; lia.
Qed.

(** twiddles *)
Variables (inv : bool) (N0 : nat) (mode : smode) (W : ptr) (T : nat -> C).
Hypothesis HW : tab m0 W (Lt (4 * L)) T.
Hypothesis HWx : disjT W (Lt (4 * L)) x N.

Lemma tab_at e i : i < L -> e < 4 -> m0 (W +! (4 * i + e)) = Val (T (4 * i + e)).
Proof. intros Hi He. apply HW. unfold Lt. lia. Qed.

Lemma mul_step u v : u <= v -> v < m -> let i := wnxn_i m (2 * u) (2 * v) in
  exists mi, Step (mult_twiddle_factor_kernel inv N0 mode n i (2 * u) (2 * v) x W) (inT W (Lt (4 * L))) (fun l => In l (map (padd x) (mul_es n u v))) m0 mi /\
    forall e, In e (mul_es n u v) -> mi (x +! e) = Val (mulF inv N0 mode n T X e).
Proof.
  intros Hu Hv i. assert (HiL : i < L) by (apply idx_lt'; auto).
  assert (Em : n / 2 = m) by (rewrite Hn; apply half_2).
  assert (Hlt : forall e, In e (mul_es n u v) -> e < N) by (intros e He; apply (mul_lt n m u v); auto).
  assert (HWs : forall l, In l [W +! (4 * i + 0); W +! (4 * i + 0 + 1); W +! (4 * i + 2); W +! (4 * i + 2 + 1)] -> inT W (Lt (4 * L)) l).
  { cbn [In]. intros l Hl. unfold Lt. repeat destruct Hl as [<-|Hl]; try destruct Hl; (eexists; split; [|reflexivity]; lia). }
  assert (ET : forall e, e < 4 -> m0 (W +! (4 * i + e)) = Val (T (4 * i + e))) by (intros e He; apply tab_at; auto).
  assert (E2 : 2 * u = 2 * v -> u = v) by lia.
  unfold mult_twiddle_factor_kernel. cbv zeta. destruct (Nat.eqb_spec (2 * v) (2 * u)) as [E|E].
  - assert (u = v) by lia. subst v. set (p := 2 * u) in *.
    destruct (block_step x ([W +! (4 * i + 0); W +! (4 * i + 0 + 1); W +! (4 * i + 2); W +! (4 * i + 2 + 1)] ++
        [x +! (p + p * n + 0); x +! (p + p * n + 0 + 1); x +! (p + p * n + n); x +! (p + p * n + n + 1)]) (mul_es n u u)
      (fun v => match v with
       | [w11; w12; w21; w22; a; b; A; B] => [cmul (sw inv N0 mode w12) b; cmul (sw inv N0 mode w22) B; cmul (sw inv N0 mode w11) a; cmul (sw inv N0 mode w21) A]
       | _ => [] end)
      [T (4 * i + 0); T (4 * i + 1); T (4 * i + 2); T (4 * i + 3); X (p + p * n + 0); X (p + p * n + 0 + 1); X (p + p * n + n); X (p + p * n + n + 1)]
      (mulF inv N0 mode n T X) m0) as (mi & HS & Hv').
    + unfold reads. cbn [map Datatypes.app]. rewrite <- !(Nat.add_assoc (4 * i)), !ET by lia. cbn [Nat.add]. rewrite !holds_cell by nia. reflexivity.
    + unfold mul_es. rewrite Nat.eqb_refl. fold p. cbn [map]. rewrite !mulF_cell by lia. rewrite Em. unfold p.
      rewrite !wsel_up by lia. fold p. fold i. unfold cell2. leq.
    + intros e He. rewrite holds_cell by auto. discriminate.
    + exists mi. split; auto.
      assert (Ew : map (padd x) (mul_es n u u) = [x +! (p + p * n + n); x +! (p + p * n + n + 1); x +! (p + p * n + 0); x +! (p + p * n + 0 + 1)]).
      { unfold mul_es. rewrite Nat.eqb_refl. fold p. cbn [map]. unfold cell2. leq. }
      rewrite Ew in *. destruct HS as (D & Hr). split; auto. eapply dfp_mono; [| |exact D].
      * intros l Hl. apply in_app_or in Hl as [Hl|Hl]; [left; auto|]. right. cbn [In] in Hl |- *. tauto.
      * auto.
  - assert (Euv : u <> v) by lia. set (p := 2 * u) in *. set (k := 2 * v) in *.
    destruct (block_step x ([W +! (4 * i + 0); W +! (4 * i + 0 + 1); W +! (4 * i + 2); W +! (4 * i + 2 + 1)] ++
      [x +! (k + p * n + 0); x +! (k + p * n + 0 + 1); x +! (k + p * n + n); x +! (k + p * n + n + 1);
       x +! (p + k * n + 0); x +! (p + k * n + 0 + 1); x +! (p + k * n + n); x +! (p + k * n + n + 1)]) (mul_es n u v)
      (fun v => match v with
       | [w11; w12; w21; w22; a; b; A; B; c; C; d; D] => 
           [cmul (sw inv N0 mode w12) b; cmul (sw inv N0 mode w22) B; cmul (sw inv N0 mode w11) a; cmul (sw inv N0 mode w21) A;
            cmul (sw inv N0 mode w21) C; cmul (sw inv N0 mode w22) D; cmul (sw inv N0 mode w11) c; cmul (sw inv N0 mode w12) d]
       | _ => [] end)
      [T (4 * i + 0); T (4 * i + 1); T (4 * i + 2); T (4 * i + 3);
       X (k + p * n + 0); X (k + p * n + 0 + 1); X (k + p * n + n); X (k + p * n + n + 1);
       X (p + k * n + 0); X (p + k * n + 0 + 1); X (p + k * n + n); X (p + k * n + n + 1)] (mulF inv N0 mode n T X) m0) as (mi & HS & Hv').
    + unfold reads. cbn [map Datatypes.app]. rewrite <- !(Nat.add_assoc (4 * i)), !ET by lia. cbn [Nat.add]. rewrite !holds_cell by nia. reflexivity.
    + unfold mul_es. destruct (Nat.eqb_spec u v); [contradiction|]. fold k p. unfold offc. cbn [map]. rewrite !mulF_cell by lia. rewrite Em.
      unfold p, k. rewrite !wsel_up, !wsel_lo by lia. fold p k. fold i. unfold cell2. leq.
    + intros e He. rewrite holds_cell by auto. discriminate.
    + exists mi. split; auto.
      assert (Ew : map (padd x) (mul_es n u v) = [x +! (p + k * n + n); x +! (p + k * n + n + 1); x +! (p + k * n + 0); x +! (p + k * n + 0 + 1);
       x +! (k + p * n + n); x +! (k + p * n + n + 1); x +! (k + p * n + 0); x +! (k + p * n + 0 + 1)]).
      { unfold mul_es. destruct (Nat.eqb_spec u v); [contradiction|]. fold k p. unfold offc. cbn [map]. unfold cell2. leq. }
      rewrite Ew in *. destruct HS as (D & Hr). split; auto. eapply dfp_mono; [| |exact D].
      * intros l Hl. apply in_app_or in Hl as [Hl|Hl]; [left; auto|]. right. cbn [In] in Hl |- *. tauto.
      * auto.
Qed.

Lemma mul_loop : exists m', Loop L (six_mul iv inv N0 mode n x W) (inT W (Lt (4 * L))) (inR x N) m0 m' /\ holds m' x N (mulF inv N0 mode n T X).
Proof.
  destruct (cells_loop L (six_mul iv inv N0 mode n x W) x (fun i => mul_es n (fst (blk i)) (snd (blk i))) (fun _ => inT W (Lt (4 * L))) (mulF inv N0 mode n T X) m0) as (m' & HL & Hv).
  - intros i Hi. destruct (idx_dec' i Hi) as (u & v & H1 & H2 & Ei & Hiv & Eb). rewrite Eb. cbn [fst snd].
    unfold six_mul, iv_get. rewrite Hiv, Ei. apply mul_step; auto.
  - intros i j e Hi Hj Hne Hin.
    destruct (idx_dec' i Hi) as (u & v & H1 & H2 & Ei & _ & Eb). destruct (idx_dec' j Hj) as (u' & v' & H1' & H2' & Ej & _ & Eb').
    rewrite Eb in Hin. rewrite Eb'. cbn [fst snd] in *. split.
    + intros Hin'. destruct (mul_disj n m u v u' v' e) as [-> ->]; auto. congruence.
    + intros (a & Ha & E). eapply HWx; eauto. apply (mul_lt n m u v); auto.
  - exists m'. split.
    + eapply Loop_mono; [| |exact HL].
      * intros l (i & _ & H). auto.
      * intros l (i & Hi & Hl). destruct (idx_dec' i Hi) as (u & v & H1 & H2 & _ & _ & Eb). rewrite Eb in Hl. cbn [fst snd] in Hl.
        apply in_map_iff in Hl as (e & <- & He). apply inR_i. apply (mul_lt n m u v); auto.
    + intros e He. destruct (cell2_dec n e He) as (r & c & Hr & Hc & ->).
      destruct (mul_cov n m r c Hn Hr Hc) as (u & v & H1 & H2 & Hin). apply (Hv (wnxn_i m (2 * u) (2 * v))); [apply idx_lt'; auto|].
      rewrite blk_at by auto. cbn [fst snd]. auto.
Qed.
End M0.

End Fixed.
End SixRun.
