(** * Generic facts about programs: footprints, frames, loops *)

From Coq Require Import List Arith Bool Lia.
From Verif Require Import Mem.
Import ListNotations.

Section Facts.
Context {V : Type}.
Notation mem := (mem V).
Notation prog := (prog V).
Notation lane := (lane V).

(** [fp R W p]: whatever values are loaded, [p] loads only from [R] (or from what it has itself
    stored before) and stores only to [W]; it contains no [UB] and no allocation. *)
Fixpoint fp {A} (R W : loc -> Prop) (p : prog A) : Prop :=
  match p with
  | Ret _ => True
  | UB => False
  | Load l k => R l /\ forall v, fp R W (k v)
  | Store l v k => W l /\ fp (fun l' => l' = l \/ R l') W k
  | Alloc _ _ _ => False
  end.

Definition initd (m : mem) (R : loc -> Prop) := forall l, R l -> exists v, m l = Val v.
Definition allocd (m : mem) (W : loc -> Prop) := forall l, W l -> m l <> Free.

Lemma loc_eqb_spec a b : reflect (a = b) (loc_eqb a b).
Proof.
  unfold loc_eqb; destruct a as [a1 a2], b as [b1 b2]; cbn.
  destruct (Nat.eqb_spec a1 b1); destruct (Nat.eqb_spec a2 b2); cbn; constructor; congruence.
Qed.

Lemma loc_eq_dec (a b : loc) : {a = b} + {a <> b}.
Proof. destruct (loc_eqb_spec a b); auto. Qed.

Lemma upd_same (m : mem) l v : upd m l v l = Val v.
Proof. unfold upd. destruct (loc_eqb_spec l l); congruence. Qed.

Lemma upd_other (m : mem) l l' v : l' <> l -> upd m l v l' = m l'.
Proof. unfold upd. destruct (loc_eqb_spec l' l); congruence. Qed.

Lemma fp_mono {A} (p : prog A) : forall (R W R' W' : loc -> Prop),
  (forall l, R l -> R' l) -> (forall l, W l -> W' l) -> fp R W p -> fp R' W' p.
Proof.
  induction p as [a| |l k IH|l v k IH|b n k IH]; cbn; intros R W R' W' HR HW H; auto.
  - destruct H as [H1 H2]; split; auto. intros v. eapply IH; eauto.
  - destruct H as [H1 H2]; split; auto.
    eapply IH; [| |exact H2]; auto. intros l' [->|HH]; auto.
Qed.

Lemma fp_bind {A B} (p : prog A) (f : A -> prog B) : forall (R W : loc -> Prop),
  fp R W p -> (forall a, fp R W (f a)) -> fp R W (bind p f).
Proof.
  induction p as [a| |l k IH|l v k IH|b n k IH]; cbn; intros R W H Hf; auto.
  - destruct H; split; auto.
  - destruct H as [H1 H2]; split; auto. apply IH; auto.
    intros a. eapply fp_mono; [| |apply Hf]; auto.
Qed.

Lemma run_bind {A B} (p : prog A) (f : A -> prog B) : forall m,
  run (bind p f) m = match run p m with Some (a, m') => run (f a) m' | None => None end.
Proof.
  induction p as [a| |l k IH|l v k IH|b n k IH]; cbn; intros m; auto.
  - destruct (m l); auto.
  - destruct (m l); auto.
Qed.

(** The effect of a footprinted program is a finite set of writes that depends only on [R]. *)
Definition app (d : loc -> option V) (m : mem) : mem :=
  fun l => match d l with Some v => Val v | None => m l end.

Lemma fp_delta {A} (p : prog A) : forall (R W : loc -> Prop) m,
  fp R W p -> initd m R -> allocd m W ->
  exists a d, (forall l v, d l = Some v -> W l) /\
    forall m2, (forall l, R l -> m2 l = m l) -> allocd m2 W ->
      exists m2', run p m2 = Some (a, m2') /\ forall l, m2' l = app d m2 l.
Proof.
  induction p as [a| |l k IH|l v k IH|b n k IH]; cbn; intros R W m Hfp HR HW; try contradiction.
  - exists a, (fun _ => None). split; [congruence|]. intros m2 _ _. exists m2. split; reflexivity.
  - destruct Hfp as [Hl Hk]. destruct (HR l Hl) as [v Hv].
    destruct (IH v R W m (Hk v) HR HW) as (a & d & Hd & Hrun).
    exists a, d. split; auto. intros m2 Hag Hal.
    rewrite (Hag l Hl), Hv. auto.
  - destruct Hfp as [Hl Hk].
    assert (HR' : initd (upd m l v) (fun l' => l' = l \/ R l')).
    { intros l' [->|H]; [exists v; apply upd_same|].
      destruct (loc_eq_dec l' l) as [->|Hne]; [exists v; apply upd_same|].
      rewrite upd_other by auto. auto. }
    assert (HW' : allocd (upd m l v) W).
    { intros l' H. destruct (loc_eq_dec l' l) as [->|Hne]; [rewrite upd_same; discriminate|].
      rewrite upd_other by auto. auto. }
    destruct (IH _ _ _ Hk HR' HW') as (a & d & Hd & Hrun).
    exists a, (fun l' => match d l' with Some v' => Some v' | None => if loc_eqb l' l then Some v else None end).
    split.
    + intros l' v'. destruct (d l') eqn:E; [intros _; eauto|].
      destruct (loc_eqb_spec l' l); [subst; auto|discriminate].
    + intros m2 Hag Hal.
      destruct (Hrun (upd m2 l v)) as (m2' & Hr & Hm).
      { intros l' [->|H]; [rewrite !upd_same; auto|].
        destruct (loc_eq_dec l' l) as [->|Hne]; [rewrite !upd_same; auto|].
        rewrite !upd_other by auto. auto. }
      { intros l' H. destruct (loc_eq_dec l' l) as [->|Hne]; [rewrite upd_same; discriminate|].
        rewrite upd_other by auto. auto. }
      exists m2'. split.
      * destruct (m2 l) eqn:E; auto. exfalso. apply (Hal l Hl E).
      * intros l'. rewrite Hm. unfold app. destruct (d l'); auto.
        unfold upd. destruct (loc_eqb l' l); auto.
Qed.

(** A footprinted program is free of undefined behaviour and leaves everything outside [W] alone. *)
Lemma fp_run {A} (p : prog A) (R W : loc -> Prop) m :
  fp R W p -> initd m R -> allocd m W ->
  exists a m', run p m = Some (a, m') /\ (forall l, ~ W l -> m' l = m l) /\
     (forall l, m' l = m l \/ exists v, m' l = Val v).
Proof.
  intros H1 H2 H3. destruct (fp_delta p R W m H1 H2 H3) as (a & d & Hd & Hr).
  destruct (Hr m) as (m' & Hrun & Hm); auto.
  exists a, m'. split; [auto|]. split.
  - intros l Hl. rewrite Hm. unfold app. destruct (d l) eqn:E; auto. exfalso. eauto.
  - intros l. rewrite Hm. unfold app. destruct (d l); eauto.
Qed.

Lemma fp_agree {A} (p : prog A) (R W : loc -> Prop) m1 m2 :
  fp R W p -> initd m1 R -> allocd m1 W -> allocd m2 W ->
  (forall l, R l -> m2 l = m1 l) ->
  exists a m1' m2', run p m1 = Some (a, m1') /\ run p m2 = Some (a, m2') /\
    forall l, (m2 l = m1 l -> m2' l = m1' l) /\ (~ W l -> m1' l = m1 l /\ m2' l = m2 l).
Proof.
  intros H1 H2 H3 H4 H5. destruct (fp_delta p R W m1 H1 H2 H3) as (a & d & Hd & Hr).
  destruct (Hr m1) as (m1' & Hrun1 & Hm1); auto.
  destruct (Hr m2) as (m2' & Hrun2 & Hm2); auto.
  exists a, m1', m2'. split; [auto|]. split; [auto|]. intros l. rewrite Hm1, Hm2. unfold app. split.
  - intros E. rewrite E. reflexivity.
  - intros Hw. destruct (d l) eqn:E; auto. exfalso; eauto.
Qed.

(** ** Loops *)

Definition nonconf (R W R' W' : loc -> Prop) : Prop :=
  forall l, (W l -> ~ R' l /\ ~ W' l) /\ (W' l -> ~ R l /\ ~ W l).

Lemma for_spec n (body : nat -> prog unit) (R W : nat -> loc -> Prop) m0 :
  (forall i, i < n -> fp (R i) (W i) (body i)) ->
  (forall i, i < n -> initd m0 (R i)) -> (forall i, i < n -> allocd m0 (W i)) ->
  (forall i j, i < n -> j < n -> i <> j -> nonconf (R i) (W i) (R j) (W j)) ->
  exists m', run (for_ n body) m0 = Some (tt, m') /\
    (forall l, (forall i, i < n -> ~ W i l) -> m' l = m0 l) /\
    (forall i, i < n -> exists mi, run (body i) m0 = Some (tt, mi) /\
        forall l, (forall j, j < n -> j <> i -> ~ W j l) -> m' l = mi l).
Proof.
  induction n as [|n IH]; intros Hfp Hi Ha Hc.
  - exists m0. cbn. repeat split; auto. intros i Hi'; lia.
  - destruct IH as (m' & Hrun & Hfr & Hv); auto.
    cbn [for_]. rewrite run_bind, Hrun.
    assert (Hn : n < S n) by lia.
    destruct (fp_delta _ _ _ m0 (Hfp n Hn) (Hi n Hn) (Ha n Hn)) as ([] & d & Hd & Hr).
    assert (HRm : forall l, R n l -> m' l = m0 l).
    { intros l Hl. apply Hfr. intros i Hin Hw.
      destruct (Hc i n) with (l := l) as [H _]; try lia. destruct (H Hw); auto. }
    assert (HWm : forall l, W n l -> m' l = m0 l).
    { intros l Hl. apply Hfr. intros i Hin Hw.
      destruct (Hc i n) with (l := l) as [H _]; try lia. destruct (H Hw); auto. }
    destruct (Hr m') as (m'' & Hr'' & Hm''); auto.
    { intros l Hl. rewrite HWm by auto. apply (Ha n Hn); auto. }
    destruct (Hr m0) as (mn & Hrn & Hmn); auto.
    exists m''. split; [exact Hr''|]. split.
    + intros l Hl. rewrite Hm''. unfold app. destruct (d l) eqn:E.
      * exfalso. apply (Hl n Hn). eauto.
      * apply Hfr. intros i Hi'. apply Hl. lia.
    + intros i Hi'. destruct (Nat.eq_dec i n) as [->|Hne].
      * exists mn. split; auto. intros l Hl. rewrite Hm'', Hmn. unfold app.
        destruct (d l); auto. apply Hfr. intros j Hj. apply Hl; lia.
      * destruct (Hv i) as (mi & Hri & Hl); [lia|]. exists mi. split; auto.
        intros l Hj. rewrite Hm''. unfold app.
        destruct (d l) eqn:E; [exfalso; apply (Hj n); auto; eauto|].
        apply Hl. intros j Hjn Hji. apply Hj; lia.
Qed.

Lemma fp_for n (body : nat -> prog unit) (R W : loc -> Prop) :
  (forall i, i < n -> fp R W (body i)) -> fp R W (for_ n body).
Proof.
  induction n as [|n IH]; cbn; intros H; auto.
  apply fp_bind; auto.
Qed.

(** ** Lanes, blocks and what a loop nest does *)

Definition lane_ok (t : lane) : Prop :=
  NoDup (wr t) /\ forall vs, length vs = length (rd t) -> length (fn t vs) = length (wr t).

Definition reads (m : mem) (rs : list loc) (vs : list V) : Prop := map m rs = map Val vs.

Lemma reads_length m rs vs : reads m rs vs -> length vs = length rs.
Proof. intros H. apply (f_equal (@length _)) in H. rewrite !map_length in H. auto. Qed.

Lemma reads_det m rs vs vs' : reads m rs vs -> reads m rs vs' -> vs = vs'.
Proof.
  unfold reads. intros H1 H2. rewrite H1 in H2. clear H1. revert vs' H2.
  induction vs as [|v vs IH]; intros [|v' vs'] H; cbn in H; try discriminate; auto.
  injection H as H1 H2. f_equal; auto.
Qed.

Lemma reads_ext m m' rs vs : (forall l, In l rs -> m' l = m l) -> reads m rs vs -> reads m' rs vs.
Proof. unfold reads. intros H <-. apply map_ext_in. auto. Qed.

Lemma initd_reads m rs : initd m (fun l => In l rs) -> exists vs, reads m rs vs.
Proof.
  induction rs as [|r rs IH]; intros H; [exists []; reflexivity|].
  destruct IH as [vs Hvs]. { intros l Hl. apply H. right; auto. }
  destruct (H r) as [v Hv]; [left; auto|]. exists (v :: vs). unfold reads in *. cbn. congruence.
Qed.

Lemma run_loads rs : forall (m : mem) vs, reads m rs vs -> run (loads rs) m = Some (vs, m).
Proof.
  induction rs as [|r rs IH]; intros m [|v vs] H; try discriminate; auto.
  injection H as H1 H2. cbn. rewrite H1. rewrite run_bind, (IH _ vs); auto.
Qed.

Lemma run_stores ws : forall (m : mem) vs, length vs = length ws -> NoDup ws ->
  (forall w, In w ws -> m w <> Free) ->
  exists m', run (stores ws vs) m = Some (tt, m') /\
    (forall l, ~ In l ws -> m' l = m l) /\
    (forall j w, nth_error ws j = Some w -> exists v, nth_error vs j = Some v /\ m' w = Val v).
Proof.
  induction ws as [|w ws IH]; intros m [|v vs] Hl Hnd Ha; try discriminate.
  - exists m. cbn. repeat split; auto. intros [|j] w H; discriminate.
  - cbn. inversion Hnd as [|? ? Hni Hnd']; subst.
    destruct (IH (upd m w v) vs) as (m' & Hr & Hf & Hv); auto.
    { intros w' Hw'. rewrite upd_other by (intros ->; auto). apply Ha; right; auto. }
    exists m'. split.
    { destruct (m w) eqn:E; auto. exfalso. apply (Ha w); [left|]; auto. }
    split.
    + intros l Hl'. rewrite Hf by tauto. apply upd_other. intros ->; tauto.
    + intros [|j] w' H; cbn in H.
      * injection H as <-. exists v. split; auto. rewrite Hf by auto. apply upd_same.
      * apply Hv; auto.
Qed.

Lemma fp_loads rs (R W : loc -> Prop) : (forall l, In l rs -> R l) -> fp R W (loads rs).
Proof.
  induction rs as [|r rs IH]; cbn; intros H; auto.
  split; [apply H; auto|]. intros v. apply fp_bind; cbn; auto.
Qed.

Lemma fp_assoc {A1 A2 A3} (p : prog A1) (f : A1 -> prog A2) (g : A2 -> prog A3) : forall (R0 W0 : loc -> Prop),
  fp R0 W0 (bind p (fun a => bind (f a) g)) -> fp R0 W0 (bind (bind p f) g).
Proof.
  induction p as [a| |l k0 IH|l v0 k0 IH|b n k0 IH]; cbn; intros R0 W0; auto.
  - intros [H1 H2]; split; auto.
  - intros [H1 H2]; split; auto.
Qed.

Lemma fp_loads_k {B} rs (k : list V -> prog B) : forall (R W : loc -> Prop),
  (forall l, In l rs -> R l) -> (forall vs, length vs = length rs -> fp R W (k vs)) -> fp R W (bind (loads rs) k).
Proof.
  revert k. induction rs as [|r rs IH]; intros k R W H Hk; cbn; [apply Hk; auto|].
  split; [apply H; left; auto|]. intros v. apply fp_assoc.
  apply IH; [intros; apply H; right; auto|]. intros vs Hl. cbn. apply Hk. cbn; auto.
Qed.

Lemma fp_stores ws : forall vs (R W : loc -> Prop),
  length vs = length ws -> (forall l, In l ws -> W l) -> fp R W (stores ws vs).
Proof.
  induction ws as [|w ws IH]; intros [|v vs] R W Hl H; try discriminate; cbn; auto.
  split; [apply H; left; auto|]. apply IH; [|intros; apply H; right]; auto.
Qed.

Section Does.
Context {K : Type}.

Definition RD (D : K -> Prop) (t : K -> lane) (l : loc) := exists k, D k /\ In l (rd (t k)).
Definition WR (D : K -> Prop) (t : K -> lane) (l : loc) := exists k, D k /\ In l (wr (t k)).

(** [Does p D t]: program [p] performs exactly the lanes [t k], k in [D], each on the memory
    found at the start, and nothing else. *)
Definition Does (p : prog unit) (D : K -> Prop) (t : K -> lane) : Prop :=
  fp (RD D t) (WR D t) p /\
  forall m, initd m (RD D t) -> allocd m (WR D t) ->
    exists m', run p m = Some (tt, m') /\ (forall l, ~ WR D t l -> m' l = m l) /\
      forall k, D k -> forall vs, reads m (rd (t k)) vs ->
        forall j w, nth_error (wr (t k)) j = Some w ->
          exists v, nth_error (fn (t k) vs) j = Some v /\ m' w = Val v.

Definition Disj (D : K -> Prop) (t : K -> lane) : Prop :=
  forall k k', D k -> D k' -> k <> k' ->
    forall l, In l (wr (t k)) -> ~ In l (rd (t k')) /\ ~ In l (wr (t k')).

Lemma Does_ext p D D' t : (forall k, D k <-> D' k) -> Does p D t -> Does p D' t.
Proof.
  intros H [H1 H2]. 
  assert (HR : forall l, RD D t l <-> RD D' t l) by (intros l; split; intros (k & Hk & Hl); exists k; split; auto; apply H; auto).
  assert (HW : forall l, WR D t l <-> WR D' t l) by (intros l; split; intros (k & Hk & Hl); exists k; split; auto; apply H; auto).
  split.
  - eapply fp_mono; [| |exact H1]; intros; [apply HR|apply HW]; auto.
  - intros m Hi Ha. destruct (H2 m) as (m' & Hr & Hf & Hv).
    + intros l Hl; apply Hi, HR, Hl.
    + intros l Hl; apply Ha, HW, Hl.
    + exists m'. split; auto. split.
      * intros l Hl. apply Hf. rewrite HW. auto.
      * intros k Hk. apply Hv, H, Hk.
Qed.

Lemma Does_skip (t : K -> lane) D : (forall k, ~ D k) -> Does skip D t.
Proof.
  intros HD. split; [exact I|]. intros m _ _. exists m. split; [reflexivity|].
  split; [auto|]. intros k Hk. destruct (HD k Hk).
Qed.

Lemma Does_block (t : K -> lane) k : lane_ok (t k) ->
  Does (block (rd (t k)) (wr (t k)) (fn (t k))) (fun k' => k' = k) t.
Proof.
  intros [Hnd Hlen]. split.
  - apply fp_loads_k; [intros l Hl; exists k; auto|].
    intros vs Hl. apply fp_stores; [auto|]. intros l Hl'. exists k; auto.
  - intros m Hi Ha.
    destruct (initd_reads m (rd (t k))) as [vs Hvs]; [intros l Hl; apply Hi; exists k; auto|].
    unfold block. rewrite run_bind, (run_loads _ _ _ Hvs).
    destruct (run_stores (wr (t k)) m (fn (t k) vs)) as (m' & Hr & Hf & Hv); auto.
    { apply Hlen. eapply reads_length; eauto. }
    { intros w Hw. apply Ha. exists k; auto. }
    exists m'. split; auto. split.
    + intros l Hl. apply Hf. intros Hin. apply Hl. exists k; auto.
    + intros k' -> vs' Hvs'. rewrite (reads_det _ _ _ _ Hvs' Hvs). auto.
Qed.

(** vector blocks *)
Lemma fp_loadss_k {B} L rs (k : list (list V) -> prog B) : forall (R W : loc -> Prop),
  (forall i l, i < L -> In l (rs i) -> R l) ->
  (forall vss, length vss = L -> (forall i, i < L -> length (nth i vss []) = length (rs i)) -> fp R W (k vss)) ->
  fp R W (bind (loadss L rs) k).
Proof.
  revert k. induction L as [|L IH]; intros k R W H Hk; cbn; [apply Hk; auto; intros; lia|].
  apply fp_assoc. apply IH; [intros i l Hi; apply (H i); lia|].
  intros vss Hl Hvss. apply fp_assoc. apply fp_loads_k; [intros l; apply (H L); lia|].
  intros vs Hvs. cbn. apply Hk.
  - rewrite app_length; cbn; lia.
  - intros i Hi. destruct (Nat.eq_dec i L) as [->|Hne].
    + rewrite app_nth2 by lia. rewrite Hl, Nat.sub_diag. cbn. auto.
    + rewrite app_nth1 by lia. apply Hvss; lia.
Qed.

Lemma run_loadss L rs : forall (m : mem) (vss : nat -> list V), (forall i, i < L -> reads m (rs i) (vss i)) ->
  run (loadss L rs) m = Some (map vss (seq 0 L), m).
Proof.
  induction L as [|L IH]; intros m vss H; auto.
  cbn [loadss]. rewrite run_bind, (IH m vss) by auto. rewrite run_bind, (run_loads _ _ (vss L)) by auto.
  cbn [run]. rewrite seq_S, map_app. reflexivity.
Qed.

Lemma mapi_map {A B} (f : nat -> A -> B) g n : forall i,
  mapi f i (map g (seq i n)) = map (fun j => f j (g j)) (seq i n).
Proof. induction n as [|n IH]; intros i; cbn; auto. f_equal. apply IH. Qed.

Lemma mapi_length {A B} (f : nat -> A -> B) l : forall i, length (mapi f i l) = length l.
Proof. induction l as [|a l IH]; intros i; cbn; auto. Qed.

Lemma mapi_nth {A B} (f : nat -> A -> B) da db l : forall i j, j < length l ->
  nth j (mapi f i l) db = f (i + j) (nth j l da).
Proof.
  induction l as [|a l IH]; intros i j H; cbn in *; [lia|].
  destruct j as [|j]; [rewrite Nat.add_0_r; auto|]. rewrite IH by lia. f_equal; lia.
Qed.

Lemma fp_storess ws vss : forall i (R W : loc -> Prop),
  (forall j, j < length vss -> length (nth j vss []) = length (ws (i + j))) ->
  (forall j l, j < length vss -> In l (ws (i + j)) -> W l) -> fp R W (storess ws i vss).
Proof.
  induction vss as [|vs vss IH]; intros i R W Hl HW; cbn; auto.
  apply fp_bind.
  - apply fp_stores; [specialize (Hl 0); rewrite Nat.add_0_r in Hl; apply Hl; cbn; lia|].
    intros l. specialize (HW 0 l). rewrite Nat.add_0_r in HW. apply HW. cbn; lia.
  - intros _. apply IH.
    + intros j Hj. specialize (Hl (S j)). cbn in Hl. replace (S i + j) with (i + S j) by lia. apply Hl. cbn; lia.
    + intros j l Hj. replace (S i + j) with (i + S j) by lia. apply HW. cbn; lia.
Qed.

Lemma run_storess ws vss : forall i (m : mem),
  (forall j, j < length vss -> length (nth j vss []) = length (ws (i + j)) /\ NoDup (ws (i + j))) ->
  (forall j w, j < length vss -> In w (ws (i + j)) -> m w <> Free) ->
  (forall j j' w, j < length vss -> j' < length vss -> j <> j' -> In w (ws (i + j)) -> ~ In w (ws (i + j'))) ->
  exists m', run (storess ws i vss) m = Some (tt, m') /\
    (forall l, (forall j, j < length vss -> ~ In l (ws (i + j))) -> m' l = m l) /\
    (forall j, j < length vss -> forall a w, nth_error (ws (i + j)) a = Some w ->
        exists v, nth_error (nth j vss []) a = Some v /\ m' w = Val v).
Proof.
  induction vss as [|vs vss IH]; intros i m Hl Ha Hd.
  - exists m. cbn. repeat split; auto. intros; lia.
  - destruct (Hl 0) as [Hl0 Hnd0]; [cbn; lia|]. rewrite Nat.add_0_r in Hl0, Hnd0. cbn in Hl0.
    cbn [storess]. rewrite run_bind.
    destruct (run_stores (ws i) m vs) as (m1 & Hr1 & Hf1 & Hv1); auto.
    { intros w Hw. apply (Ha 0); [cbn; lia|]. rewrite Nat.add_0_r; auto. }
    rewrite Hr1.
    destruct (IH (S i) m1) as (m2 & Hr2 & Hf2 & Hv2).
    { intros j Hj. specialize (Hl (S j)). replace (S i + j) with (i + S j) by lia. apply Hl. cbn; lia. }
    { intros j w Hj Hw. replace (S i + j) with (i + S j) in Hw by lia.
      rewrite Hf1; [apply (Ha (S j)); auto; cbn; lia|]. 
      specialize (Hd (S j) 0 w). rewrite Nat.add_0_r in Hd. apply Hd; auto; cbn; lia. }
    { intros j j' w Hj Hj' Hne. replace (S i + j) with (i + S j) by lia. replace (S i + j') with (i + S j') by lia.
      apply Hd; cbn; lia. }
    exists m2. split; auto. split.
    + intros l Hl'. rewrite Hf2.
      * apply Hf1. specialize (Hl' 0). rewrite Nat.add_0_r in Hl'. apply Hl'. cbn; lia.
      * intros j Hj. replace (S i + j) with (i + S j) by lia. apply Hl'. cbn; lia.
    + intros [|j] Hj a w Hw.
      * rewrite Nat.add_0_r in Hw. destruct (Hv1 a w Hw) as (v & Hv & Hm). exists v. split; auto.
        rewrite Hf2; auto. intros j Hj'. replace (S i + j) with (i + S j) by lia.
        apply (Hd 0 (S j)); try (cbn; lia). rewrite Nat.add_0_r. apply nth_error_In in Hw. auto.
      * replace (i + S j) with (S i + j) in Hw by lia. cbn [nth]. apply Hv2; auto. cbn in Hj; lia.
Qed.

Lemma Does_blockL (t : K -> lane) L (kk : nat -> K) :
  (forall i, i < L -> lane_ok (t (kk i))) ->
  (forall i j, i < L -> j < L -> i <> j -> kk i <> kk j) ->
  Disj (fun k => exists i, i < L /\ k = kk i) t ->
  Does (blockL L (fun i => rd (t (kk i))) (fun i => wr (t (kk i))) (fun i => fn (t (kk i))))
       (fun k => exists i, i < L /\ k = kk i) t.
Proof.
  intros Hok Hinj Hdisj. split.
  - apply fp_loadss_k.
    + intros i l Hi Hl. exists (kk i). split; eauto.
    + intros vss Hl Hvss. apply fp_storess; rewrite mapi_length, Hl.
      * intros j Hj. rewrite (mapi_nth _ [] []) by lia. cbn. apply (proj2 (Hok j Hj)). auto.
      * intros j l Hj Hl'. cbn in Hl'. exists (kk j). split; eauto.
  - intros m Hi Ha.
    assert (Hex : forall n, n <= L -> exists vss : nat -> list V, forall i, i < n -> reads m (rd (t (kk i))) (vss i)).
    { induction n as [|n IH]; intros Hn; [exists (fun _ => []); intros; lia|].
      destruct IH as [vss Hvss]; [lia|].
      destruct (initd_reads m (rd (t (kk n)))) as [vs Hvs].
      { intros l Hl. apply Hi. exists (kk n). split; eauto. }
      exists (fun i => if i =? n then vs else vss i). intros i Hin.
      destruct (Nat.eqb_spec i n) as [->|]; auto. apply Hvss; lia. }
    destruct (Hex L) as [vss Hvss]; auto.
    unfold blockL. rewrite run_bind, (run_loadss L _ m vss) by auto.
    rewrite mapi_map.
    assert (Hlen : length (map (fun j => fn (t (kk j)) (vss j)) (seq 0 L)) = L)
      by (rewrite map_length, seq_length; auto).
    assert (Hnth : forall j, j < L -> nth j (map (fun j => fn (t (kk j)) (vss j)) (seq 0 L)) [] = fn (t (kk j)) (vss j)).
    { intros j Hj. apply nth_error_nth. rewrite nth_error_map.
      assert (E : nth_error (seq 0 L) j = Some j).
      { rewrite (nth_error_nth' _ 0) by (rewrite seq_length; auto). rewrite seq_nth by auto. reflexivity. }
      rewrite E. reflexivity. }
    destruct (run_storess (fun i => wr (t (kk i))) (map (fun j => fn (t (kk j)) (vss j)) (seq 0 L)) 0 m)
      as (m' & Hr & Hf & Hv).
    + rewrite Hlen. intros j Hj. rewrite Hnth by auto. cbn. destruct (Hok j Hj) as [Hnd Hl].
      split; auto. apply Hl. eapply reads_length; eauto.
    + rewrite Hlen. intros j w Hj Hw. apply Ha. exists (kk j). split; eauto.
    + rewrite Hlen. cbn. intros j j' w Hj Hj' Hne Hw. apply (Hdisj (kk j) (kk j')); eauto.
    + exists m'. split; auto. rewrite Hlen in Hf, Hv. split.
      * intros l Hl. apply Hf. intros j Hj Hin. apply Hl. exists (kk j). split; eauto.
      * intros k (i & Hi' & ->) vs Hvs j w Hw.
        destruct (Hv i Hi' j w Hw) as (v & Hv1 & Hv2). exists v. split; auto.
        rewrite Hnth in Hv1 by auto. rewrite (reads_det _ _ _ _ Hvs (Hvss i Hi')). auto.
Qed.

Lemma Does_for n (body : nat -> prog unit) (D : nat -> K -> Prop) (t : K -> lane) :
  (forall i, i < n -> Does (body i) (D i) t) ->
  (forall i j k, i < n -> j < n -> i <> j -> D i k -> ~ D j k) ->
  Disj (fun k => exists i, i < n /\ D i k) t ->
  Does (for_ n body) (fun k => exists i, i < n /\ D i k) t.
Proof.
  intros Hd Hdd Hdisj.
  assert (HRi : forall i l, i < n -> RD (D i) t l -> RD (fun k => exists i, i < n /\ D i k) t l).
  { intros i l Hi (k & Hk & Hl). exists k. split; eauto. }
  assert (HWi : forall i l, i < n -> WR (D i) t l -> WR (fun k => exists i, i < n /\ D i k) t l).
  { intros i l Hi (k & Hk & Hl). exists k. split; eauto. }
  assert (Hnc : forall i j, i < n -> j < n -> i <> j -> nonconf (RD (D i) t) (WR (D i) t) (RD (D j) t) (WR (D j) t)).
  { intros i j Hi Hj Hne l. split.
    - intros (k & Hk & Hl). split; intros (k' & Hk' & Hl').
      + destruct (Hdisj k k') with (l := l) as [H1 H2]; eauto. intros ->. apply (Hdd i j k'); auto.
      + destruct (Hdisj k k') with (l := l) as [H1 H2]; eauto. intros ->. apply (Hdd i j k'); auto.
    - intros (k & Hk & Hl). split; intros (k' & Hk' & Hl').
      + destruct (Hdisj k k') with (l := l) as [H1 H2]; eauto. intros ->. apply (Hdd i j k'); auto.
      + destruct (Hdisj k k') with (l := l) as [H1 H2]; eauto. intros ->. apply (Hdd i j k'); auto. }
  split.
  - apply fp_for. intros i Hi. eapply fp_mono; [| |apply (Hd i Hi)]; eauto.
  - intros m Hi Ha.
    destruct (for_spec n body (fun i => RD (D i) t) (fun i => WR (D i) t) m) as (m' & Hr & Hf & Hv); auto.
    + intros i Hi'. apply (Hd i Hi').
    + intros i Hi' l Hl. apply Hi. eauto.
    + intros i Hi' l Hl. apply Ha. eauto.
    + exists m'. split; auto. split.
      * intros l Hl. apply Hf. intros i Hi' HW. apply Hl. eauto.
      * intros k (i & Hin & Hk) vs Hvs j w Hw.
        destruct (Hv i Hin) as (mi & Hri & Hmi).
        destruct (Hd i Hin) as [_ Hdi]. destruct (Hdi m) as (mi' & Hri' & _ & Hvi).
        { intros l Hl. apply Hi. eauto. }
        { intros l Hl. apply Ha. eauto. }
        rewrite Hri in Hri'. injection Hri' as <-.
        destruct (Hvi k Hk vs Hvs j w Hw) as (v & Hv1 & Hv2). exists v. split; auto.
        rewrite Hmi; auto. intros j' Hj' Hne HW. 
        apply nth_error_In in Hw. destruct (Hnc i j' Hin Hj' (not_eq_sym Hne) w) as [H1 _].
        destruct H1; auto. exists k; auto.
Qed.

End Does.

End Facts.

