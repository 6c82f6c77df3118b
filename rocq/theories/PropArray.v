(** * C27, C32: memory of transform objects with failing allocations *)

From Coq Require Import List Arith Bool Lia ZArith.
From Verif Require Import Lanes ModelPow ModelSix ModelApi ModelBluestein ApiFacts BluesteinRun ModelArray ArrayFacts.
Import ListNotations.

(** ** lengths *)
(** lengths for which setup computes no int product that overflows *)
Definition in_range (k : cls) (n : nat) : Prop :=
  match k with CFFT | CReal => True | CDct => (Z.of_nat (2 * n) <= INT_MAX)%Z | CBluestein => (Z.of_nat n <= 2 ^ 29)%Z end.
(** lengths for which the object's methods may be called (C06: a complex transform of length 1 is not provided, nor a
    real one of length 2 or 3, which needs it) *)
Definition callable (k : cls) (n : nat) : Prop :=
  match k with CFFT => n <> 1 | CReal | CDct => n <> 2 /\ n <> 3 | CBluestein => True end.
(** setup(0) of a Bluestein object changes nothing *)
Definition configured (k : cls) (old : option nat) (n : nat) : option nat :=
  match k with CBluestein => if n =? 0 then old else Some n | _ => Some n end.

(** ** the life of an object: [life k fail o s] -- s arises by construction, setups that succeed or throw
    std::bad_alloc, and method calls; o is the length set by the last setup, None if there is none or it threw.
    Methods are called only on a configured object. *)
Inductive life (k : cls) (fail : nat -> bool) : option nat -> st -> Prop :=
| l_default : life k fail None fresh
| l_ctor n s : in_range k n -> c_ctor fail k n fresh = (true, s) -> life k fail (configured k None n) s
| l_setup o s n s' : life k fail o s -> in_range k n -> c_setup fail k n s = (true, s') -> life k fail (configured k o n) s'
| l_throw o s n s' : life k fail o s -> in_range k n -> c_setup fail k n s = (false, s') -> life k fail None s'
| l_call n s s' : life k fail (Some n) s -> callable k n -> c_call k s = (true, s') -> life k fail (Some n) s'.

(** ** proofs *)
Definition members (k : cls) : nset :=
  match k with
  | CFFT => fun j => j = Work
  | CReal => fun j => j = Wu
  | CDct => fun j => j = Wu \/ j = Wv \/ j = Wk1 \/ j = Wk2
  | CBluestein => fun j => j = Work \/ j = Wk1 \/ j = Wk2 \/ j = Wb
  end.
Definition others (k : cls) : nset := fun j => ~ members k j /\ ~ eng j /\ j <> Obj.
Definition nil : nset := fun _ => False.
Definition needs_obj (k : cls) (n : nat) : bool := match k with CFFT => negb (n =? 1) | CReal | CDct => (2 <=? n) && negb (n / 2 =? 1) | CBluestein => 2 <=? n end.
Definition Ready (k : cls) (n : nat) (s : st) : Prop := exists l, F (needs_obj k n) (members k) (members k) l s /\ (k = CFFT \/ l = n).
Definition Base (s : st) : Prop := exists l, F false nil nil l s.

Lemma sel_1 n : n <> 1 -> sel n = true.
Proof. intros H. unfold sel. destruct (select_ok n H) as (e & -> & _). reflexivity. Qed.
Ltac ne := match goal with
  | |- _ <> Obj => discriminate
  | |- ~ eng _ => unfold eng; intuition discriminate
  end.
Ltac pl := let j := fresh in intros j; unfold plus, minus, nil, members, eng; intuition (subst; try discriminate; try congruence).
Lemma plain_nil : plain nil. Proof. intros j []. Qed.
Lemma plain_plus X i : plain X -> i <> Obj -> ~ eng i -> plain (plus X i).
Proof. intros HX H1 H2 j [Hj| ->]; auto. Qed.
#[global] Hint Resolve plain_nil plain_plus : core.

Section Classes.
Variable fail : nat -> bool.

Lemma s_fft0 (o : bool) (X Y : nset) l n : plain X -> plain Y -> tri (F o X Y l) (fft0_arr fail n) (F (sel n) X Y l) Base.
Proof.
  intros HX HY. eapply tri_weak; [apply (t_fft0 fail o X Y l n HX HY)|auto|auto|]. intros s Hs. exists l. eapply F_weak; [exact Hs|auto| |]; intros j [].
Qed.
Lemma s_arr (o : bool) (X Y : nset) l i n : i <> Obj -> ~ eng i -> tri (F o X Y l) (arr_setup fail i n ;> take i) (F o (plus X i) (plus Y i) l) Base.
Proof.
  intros Hi He. eapply tri_weak; [apply (t_arr fail o X Y l i n Hi He)|auto|auto|]. intros s Hs. exists l. eapply F_weak; [exact Hs|discriminate| |]; intros j [].
Qed.
Lemma s_use (o : bool) (X Y : nset) l i : X i -> Y i -> tri (F o X Y l) (use i) (F o X Y l) Base.
Proof. intros HX HY. apply t_false, t_use_F; auto. Qed.
Lemma s_len (o : bool) (X Y : nset) l n : tri (F o X Y l) (do_ (set_len n)) (F o X Y n) Base.
Proof. apply t_false, t_len. Qed.

Lemma s_fft (o : bool) (X Y : nset) l n : plain X -> plain Y -> tri (F o X Y l) (fft_arr fail n) (F (sel n) (plus X Work) (plus Y Work) l) Base.
Proof. intros HX HY. unfold fft_arr. apply tri_assoc. eapply tri_seq; [apply s_fft0; auto|]. apply s_arr; ne. Qed.
Lemma s_rfft (o : bool) (X Y : nset) l n : plain X -> plain Y -> tri (F o X Y l) (rfft_arr fail n) (F (sel (n / 2)) (plus X Wu) (plus Y Wu) n) Base.
Proof.
  intros HX HY. unfold rfft_arr. eapply tri_seq.
  - apply tri_assoc. eapply tri_seq; [eapply tri_seq; [apply s_len|apply s_fft0; auto]|]. apply s_arr; ne.
  - destruct (n <? 1); [apply tri_ok|apply s_use; right; auto].
Qed.
Lemma s_dct0 (o : bool) (X Y : nset) l n : plain X -> plain Y -> mul_ok 2 n = true ->
  tri (F o X Y l) (dct0_arr fail n) (F (sel (n / 2)) (plus (plus X Wu) Wv) (plus (plus Y Wu) Wv) n) Base.
Proof.
  intros HX HY Hn. unfold dct0_arr. rewrite Hn. cbn [negb]. eapply tri_seq.
  - apply tri_assoc. eapply tri_seq; [eapply tri_seq; [apply s_len|apply s_rfft; auto]|]. apply s_arr; ne.
  - destruct (n <? 2); [apply tri_ok|apply s_use; right; auto].
Qed.
Lemma s_dct (o : bool) (X Y : nset) l n : plain X -> plain Y -> mul_ok 2 n = true ->
  tri (F o X Y l) (dct_arr fail n) (F (sel (n / 2)) (plus (plus (plus (plus X Wu) Wv) Wk1) Wk2) (plus (plus (plus (plus Y Wu) Wv) Wk1) Wk2) n) Base.
Proof.
  intros HX HY Hn. unfold dct_arr. apply tri_assoc. eapply tri_seq; [|apply s_arr; ne]. apply tri_assoc. eapply tri_seq; [|apply s_arr; ne].
  eapply tri_seq; [apply s_len|apply s_dct0; auto].
Qed.
Lemma s_bl (o : bool) (X Y : nset) l n L : plain X -> plain Y -> 1 <= n -> mul_ok 2 n = true -> pad_loop 32 1 (2 * n - 1) = Some L ->
  tri (F o X Y l) (bl_arr fail n) (F (sel L) (plus (plus (plus (plus X Work) Wk1) Wk2) Wb) (plus (plus (plus (plus Y Work) Wk1) Wk2) Wb) n) Base.
Proof.
  intros HX HY H1 Hn HL. unfold bl_arr. rewrite Hn, HL. destruct (Nat.ltb_spec n 1); [lia|]. cbn [negb].
  eapply tri_seq; [apply s_len|]. eapply tri_seq; [|apply s_use; right; auto].
  apply tri_assoc. eapply tri_seq; [|apply s_arr; ne]. apply tri_assoc. eapply tri_seq; [|apply s_arr; ne]. apply tri_assoc. eapply tri_seq; [|apply s_arr; ne].
  apply s_fft; auto.
Qed.

Lemma mul_ok_range n : (Z.of_nat (2 * n) <= INT_MAX)%Z -> mul_ok 2 n = true.
Proof. intros H. unfold mul_ok. apply Z.leb_le. rewrite Nat2Z.inj_mul in H. exact H. Qed.
Lemma div2_1 n : n <> 2 -> n <> 3 -> n / 2 <> 1.
Proof. intros H2 H3 E. pose proof (Nat.div_mod n 2 ltac:(lia)). pose proof (Nat.mod_upper_bound n 2 ltac:(lia)). lia. Qed.

Lemma s_class k n : in_range k n -> (k = CBluestein -> 1 <= n) -> tri Base (c_setup fail k n) (Ready k n) Base.
Proof.
  intros Hr Hb s (l & Hs). destruct k; cbn [c_setup] in *.
  - pose proof (s_fft false nil nil l n plain_nil plain_nil s Hs) as H. destruct (fft_arr fail n s) as [[] s']; auto.
    eexists. split; [|first [left; reflexivity|right; reflexivity]]. eapply F_weak; [exact H| |pl|pl]. cbn. intros Hn. apply sel_1. apply negb_true_iff, Nat.eqb_neq in Hn. auto.
  - pose proof (s_rfft false nil nil l n plain_nil plain_nil s Hs) as H. destruct (rfft_arr fail n s) as [[] s']; auto.
    eexists. split; [|first [left; reflexivity|right; reflexivity]]. eapply F_weak; [exact H| |pl|pl]. cbn. intros Hn. apply sel_1. apply andb_prop in Hn as [_ Hn]. apply negb_true_iff, Nat.eqb_neq in Hn. auto.
  - pose proof (s_dct false nil nil l n plain_nil plain_nil (mul_ok_range n Hr) s Hs) as H. destruct (dct_arr fail n s) as [[] s']; auto.
    eexists. split; [|first [left; reflexivity|right; reflexivity]]. eapply F_weak; [exact H| |pl|pl]. cbn. intros Hn. apply sel_1. apply andb_prop in Hn as [_ Hn]. apply negb_true_iff, Nat.eqb_neq in Hn. auto.
  - assert (HN : bl_length n) by (split; auto). destruct (bl_pad n HN) as (e & E & _).
    pose proof (s_bl false nil nil l n (2 ^ e) plain_nil plain_nil (Hb eq_refl) (bl_mul_ok n HN) E s Hs) as H.
    destruct (bl_arr fail n s) as [[] s']; auto. eexists. split; [|first [left; reflexivity|right; reflexivity]]. eapply F_weak; [exact H| |pl|pl]. cbn [needs_obj]. intros Hn. apply sel_1.
    destruct (bl_pad_valid n _ HN E) as [_ Hv]. apply Nat.leb_le in Hn. destruct (Hv Hn). lia.
Qed.

(** empty pointers *)
Definition Gp (Z : nset) (c : cmd) : Prop := tri (G Z) c (G Z) (G Z).
Lemma gp_seq Z c d : Gp Z c -> Gp Z d -> Gp Z (c ;> d).
Proof. intros H1 H2. eapply tri_seq; [exact H1|exact H2]. Qed.
Lemma gp_f Z c : tri (G Z) c (G Z) (fun _ => False) -> Gp Z c.
Proof. apply t_false. Qed.
Lemma gp_dtor Z i : Gp Z (arr_dtor i).
Proof. apply gp_f. eapply tri_weak; [apply (g_dtor Z i)|auto| |auto]. intros s Hs. eapply G_weak; [exact Hs|]. intros j Hj. left; auto. Qed.
Lemma gp_destroy Z i : Gp Z (arr_destroy i). Proof. exact (gp_dtor Z i). Qed.
Lemma gp_fft0_dtor Z : Gp Z fft0_dtor.
Proof. apply gp_f. eapply tri_weak; [apply (g_fft0_dtor Z)|auto| |auto]. intros s Hs. eapply G_weak; [exact Hs|]. intros j Hj. left; auto. Qed.
Lemma gp_reset Z : Gp Z obj_reset_arr.
Proof. apply gp_f. eapply tri_weak; [apply (g_reset Z)|auto| |auto]. intros s Hs. eapply G_weak; [exact Hs|]. intros j Hj. left; auto. Qed.
Lemma gp_call Z : Gp Z fft0_call.
Proof.
  intros s Hs. unfold fft0_call. destruct (ptr s Obj); [|exact Hs].
  assert (H : Gp Z (use_if EW ;> use_if EWm ;> use_if EWs ;> use_if EIv)) by (repeat apply gp_seq; apply gp_f, g_use_if). exact (H s Hs).
Qed.
Lemma gp_onthrow Z c h : Gp Z c -> Gp Z h -> Gp Z (onthrow c h).
Proof. intros H1 H2. eapply tri_onthrow; [exact H1|exact H2]. Qed.
Lemma gp_setup Z i n : ~ Z i -> Gp Z (arr_setup fail i n). Proof. apply g_setup. Qed.
Lemma gp_ctor (Z : nset) i n : ~ Z i -> Gp Z (arr_ctor fail i n).
Proof.
  intros Hi s Hs. unfold arr_ctor, andthen, malloc_to, check. destruct (fail (nreq s)); cbn [set_ptr ptr]; rewrite upd_eq; intros j Hj; cbn [set_ptr ptr];
    rewrite upd_ne by (intros <-; contradiction); auto.
Qed.
Ltac no := intros H; unfold others, members, eng in H; intuition congruence.
Lemma gp_fft0 k n : Gp (others k) (fft0_arr fail n).
Proof. apply g_fft0; [no|]. intros j Hj. apply Hj. Qed.
Ltac gp := repeat match goal with
  | |- Gp _ (_ ;> _) => apply gp_seq
  | |- Gp _ (fft0_arr _ _) => apply gp_fft0
  | |- Gp _ (arr_setup _ _ _) => apply gp_setup; no
  | |- Gp _ (arr_ctor _ _ _) => apply gp_ctor; no
  | |- Gp _ (take _) => apply gp_f, g_take
  | |- Gp _ (use _) => apply gp_f, g_use
  | |- Gp _ (do_ _) => apply gp_f, g_do; reflexivity
  | |- Gp _ (arr_dtor _) => apply gp_dtor
  | |- Gp _ (arr_destroy _) => apply gp_destroy
  | |- Gp _ fft0_dtor => apply gp_fft0_dtor
  | |- Gp _ obj_reset_arr => apply gp_reset
  | |- Gp _ fft0_call => apply gp_call
  | |- Gp _ (onthrow _ _) => apply gp_onthrow
  | |- Gp _ ok => apply tri_ok
  | |- Gp _ (if ?b then _ else _) => destruct b
  | |- Gp _ (match ?b with Some _ => _ | None => _ end) => destruct b
  end.
Lemma gp_c_setup k n : Gp (others k) (c_setup fail k n).
Proof. destruct k; cbn [c_setup]; unfold fft_arr, dct_arr, dct0_arr, rfft_arr, bl_arr; gp; unfold fft_arr; gp. Qed.
Lemma gp_c_ctor k n : Gp (others k) (c_ctor fail k n).
Proof.
  destruct k; cbn [c_ctor]; unfold fft_ctor, dct_unwind, rfft_unwind, bl_unwind, dct0_dtor, rfft_dtor, fft_dtor; gp.
  - apply (gp_c_setup CReal).
  - apply (gp_c_setup CDct).
  - apply (gp_c_setup CBluestein).
Qed.
Lemma gp_c_call k : Gp (others k) (c_call k).
Proof.
  destruct k; cbn [c_call].
  - unfold fft_call. gp.
  - intros s Hs. unfold rfft_call. assert (H : forall b : bool, Gp (others CReal) (if b then ok else fft0_call;> use Wu)) by (intros b; gp). exact (H _ s Hs).
  - intros s Hs. unfold dct0_call.
    assert (H0 : Gp (others CDct) rfft_call).
    { intros s' Hs'. unfold rfft_call. assert (H : forall b : bool, Gp (others CDct) (if b then ok else fft0_call;> use Wu)) by (intros b; gp). exact (H _ s' Hs'). }
    assert (H : forall b : bool, Gp (others CDct) (if b then ok else use Wv;> use Wk1;> use Wk2;> rfft_call)) by (intros b; gp; auto). exact (H _ s Hs).
  - intros s Hs. unfold bl_call.
    assert (H : forall b : bool, Gp (others CBluestein) (if b then ok else use Wk1;> use Wk2;> use Wb;> fft_call)) by (intros b; unfold fft_call; gp). exact (H _ s Hs).
Qed.

(** calls on a configured object *)
Lemma s_rfft_call (X Y : nset) l : X Wu -> Y Wu -> forall o : bool, (2 <= l -> o = true) -> tri (F o X Y l) rfft_call (F o X Y l) (fun _ => False).
Proof.
  intros HX HY o Ho s Hs. unfold rfft_call. rewrite (v_len _ _ _ _ _ Hs). destruct (Nat.ltb_spec l 2); [exact Hs|]. rewrite Ho in * by lia.
  assert (H' : tri (F true X Y l) (fft0_call ;> use Wu) (F true X Y l) (fun _ => False)) by (eapply t_seq; [apply t_fft0_call|apply t_use_F; auto]).
  exact (H' s Hs).
Qed.
Lemma s_call k n : callable k n -> tri (Ready k n) (c_call k) (Ready k n) (fun _ => False).
Proof.
  intros Hc s (l & Hs & Hl). destruct k; cbn [c_call callable needs_obj] in *.
  - rewrite (proj2 (Nat.eqb_neq n 1) Hc) in Hs. cbn [negb] in Hs.
    assert (H : tri (F true (members CFFT) (members CFFT) l) fft_call (F true (members CFFT) (members CFFT) l) (fun _ => False)).
    { unfold fft_call. eapply t_seq; [apply t_fft0_call|apply t_use_F; reflexivity]. }
    specialize (H s Hs). destruct (fft_call s) as [[] s']; [|exact H]. exists l. split; auto. cbn [needs_obj]. rewrite (proj2 (Nat.eqb_neq n 1) Hc). exact H.
  - destruct Hl as [Hl| ->]; [discriminate|].
    assert (Ho : 2 <= n -> (2 <=? n) && negb (n / 2 =? 1) = true).
    { intros H2. rewrite (proj2 (Nat.leb_le 2 n) H2), (proj2 (Nat.eqb_neq (n / 2) 1)); [reflexivity|apply div2_1; apply Hc]. }
    pose proof (s_rfft_call (members CReal) (members CReal) n eq_refl eq_refl _ Ho s Hs) as H.
    destruct (rfft_call s) as [[] s']; [|exact H]. exists n. auto.
  - destruct Hl as [Hl| ->]; [discriminate|].
    assert (Ho : 2 <= n -> (2 <=? n) && negb (n / 2 =? 1) = true).
    { intros H2. rewrite (proj2 (Nat.leb_le 2 n) H2), (proj2 (Nat.eqb_neq (n / 2) 1)); [reflexivity|apply div2_1; apply Hc]. }
    unfold dct0_call. rewrite (v_len _ _ _ _ _ Hs). destruct (Nat.ltb_spec n 2); [exists n; auto|].
    set (o := (2 <=? n) && negb (n / 2 =? 1)) in *.
    assert (H' : tri (F o (members CDct) (members CDct) n) (use Wv ;> use Wk1 ;> use Wk2 ;> rfft_call) (F o (members CDct) (members CDct) n) (fun _ => False)).
    { repeat eapply t_seq; [apply t_use_F..|apply s_rfft_call]; cbn; auto. }
    specialize (H' s Hs). destruct ((use Wv ;> use Wk1 ;> use Wk2 ;> rfft_call) s) as [[] s']; [|exact H']. exists n. auto.
  - destruct Hl as [Hl| ->]; [discriminate|].
    unfold bl_call. rewrite (v_len _ _ _ _ _ Hs). destruct (Nat.ltb_spec n 2); [exists n; auto|]. rewrite (proj2 (Nat.leb_le 2 n)) in Hs by lia.
    assert (H' : tri (F true (members CBluestein) (members CBluestein) n) (use Wk1 ;> use Wk2 ;> use Wb ;> fft_call) (F true (members CBluestein) (members CBluestein) n) (fun _ => False)).
    { unfold fft_call. repeat eapply t_seq; first [apply t_fft0_call|apply t_use_F; cbn; auto]. }
    specialize (H' s Hs). destruct ((use Wk1 ;> use Wk2 ;> use Wb ;> fft_call) s) as [[] s']; [|exact H'].
    exists n. cbn [needs_obj]. rewrite (proj2 (Nat.leb_le 2 n)) by lia. auto.
Qed.

(** destructors and unwinding *)
Definition D (Z : nset) (s : st) : Prop := Base s /\ G Z s.
Definition Gone (s : st) : Prop := Base s /\ forall i, ptr s i = None.
Lemma d_dtor Z i : i <> Obj -> ~ eng i -> tri (D Z) (arr_dtor i) (D (plus Z i)) (fun _ => False).
Proof.
  intros Hi He s [(l & Hs) HG]. pose proof (t_arr_dtor false nil nil l i Hi He s Hs) as H. pose proof (g_dtor Z i s HG) as H'.
  destruct (arr_dtor i s) as [[] s']; [|exact H]. split; [|exact H']. exists l. eapply F_weak; [exact H|auto| |]; intros j [].
Qed.
Lemma d_destroy Z i : i <> Obj -> ~ eng i -> tri (D Z) (arr_destroy i) (D (plus Z i)) (fun _ => False).
Proof. exact (d_dtor Z i). Qed.
Lemma d_fft0 Z : (forall j, Z j \/ eng j \/ j = Obj) -> tri (D Z) fft0_dtor Gone (fun _ => False).
Proof.
  intros HZ s [(l & Hs) HG]. pose proof (t_fft0_dtor false nil nil l plain_nil plain_nil s Hs) as H. pose proof (g_fft0_dtor Z s HG) as H'.
  destruct (fft0_dtor s) as [[] s']; [|exact H]. destruct H as [H HO]. split; [exists l; exact H|].
  intros i. destruct (HZ i) as [Hi|[Hi| ->]]; [apply H'; left; auto| |exact HO]. apply (v_obj _ _ _ _ _ H HO i Hi).
Qed.
Ltac cover := let j := fresh "j" in intros j; unfold plus, others, members, eng; destruct j; intuition discriminate.
Ltac dd := repeat match goal with
  | |- tri _ (_ ;> _) _ _ => eapply t_seq
  | |- tri _ (arr_dtor _) _ _ => apply d_dtor; ne
  | |- tri _ (arr_destroy _) _ _ => apply d_destroy; ne
  | |- tri _ fft0_dtor _ _ => apply d_fft0; cover
  end.
Lemma d_c_dtor k : tri (D (others k)) (c_dtor k) Gone (fun _ => False).
Proof.
  destruct k; cbn [c_dtor]; unfold fft_dtor, rfft_dtor, dct_dtor, dct0_dtor, rfft_dtor, bl_dtor, fft_dtor;
    dd.
Qed.
Lemma d_unwind : tri (D (others CReal)) rfft_unwind Gone (fun _ => False) /\ tri (D (others CDct)) dct_unwind Gone (fun _ => False) /\
  tri (D (others CBluestein)) bl_unwind Gone (fun _ => False).
Proof.
  split; [|split]; unfold rfft_unwind, dct_unwind, bl_unwind, dct0_dtor, rfft_dtor, fft_dtor;
    dd.
Qed.

Lemma gone_no_leak s : Gone s -> legal (hist s) /\ no_leak (hist s).
Proof.
  intros [(l & Hs) Hn]. split; [apply Hs|]. intros b Hb.
  assert (Hd : forall e f : ev, {e = f} + {e <> f}) by (intros; decide equality; apply Nat.eq_dec).
  destruct (in_dec Hd (Free b) (hist s)) as [H|H]; auto. exfalso.
  assert (Hl : live b (hist s)) by (split; auto). apply (v_live _ _ _ _ _ Hs) in Hl as (i & Hi). rewrite Hn in Hi. discriminate.
Qed.
Lemma base_fresh : F false nil nil 0 fresh.
Proof.
  constructor; cbn; auto; try discriminate; try contradiction.
  - intros b (n & []).
  - intros b. split; [intros [(n & []) _]|intros (i & H); discriminate].
Qed.
Lemma G_fresh Z : G Z fresh. Proof. intros i _. reflexivity. Qed.

(** constructors *)
Lemma s_onthrow k c h n : tri Base c (Ready k n) Base -> Gp (others k) c -> tri (D (others k)) h Gone (fun _ => False) ->
  tri (D (others k)) (onthrow c h) (fun s => Ready k n s /\ G (others k) s) Gone.
Proof.
  intros H1 H2 H3. eapply tri_onthrow with (R' := D (others k)); [|apply t_false; exact H3].
  intros s [Hs HG]. specialize (H1 s Hs). specialize (H2 s HG). destruct (c s) as [[] s']; split; auto.
Qed.
Lemma d_reset Z : (forall j, Z j \/ eng j \/ j = Obj) -> tri (D Z) obj_reset_arr Gone (fun _ => False).
Proof.
  intros HZ s [(l & Hs) HG]. pose proof (t_reset_F false nil nil l plain_nil plain_nil s Hs) as H. pose proof (g_reset Z s HG) as H'.
  destruct (obj_reset_arr s) as [[] s']; [|exact H]. destruct H as [H HO]. split; [exists l; exact H|].
  intros i. destruct (HZ i) as [Hi|[Hi| ->]]; [apply H'; left; auto| |exact HO]. apply (v_obj _ _ _ _ _ H HO i Hi).
Qed.
Lemma s_fft_ctor n : tri (fun s => s = fresh) (fft_ctor fail n) (fun s => Ready CFFT n s /\ G (others CFFT) s) Gone.
Proof.
  set (Z := fun j => ~ eng j /\ j <> Obj).
  assert (HZ : forall j, Z j \/ eng j \/ j = Obj) by (intros j; unfold Z, eng; destruct j; intuition discriminate).
  assert (HW : Z Work) by (unfold Z, eng; intuition discriminate).
  unfold fft_ctor.
  eapply tri_seq with (Q := fun s => F (sel n) nil nil 0 s /\ G (others CFFT) s /\ ptr s Work <> None).
  - eapply tri_seq with (Q := fun s => F (sel n) nil nil 0 s /\ G Z s).
    + eapply tri_onthrow with (R' := D Z); [|apply t_false, d_reset; auto].
      intros s ->. pose proof (s_fft0 false nil nil 0 n plain_nil plain_nil fresh base_fresh) as H.
      pose proof (g_fft0 fail Z n ltac:(unfold Z; tauto) ltac:(unfold Z; tauto) fresh (G_fresh Z)) as H'.
      destruct (fft0_arr fail n fresh) as [[] s']; split; auto.
    + eapply tri_onthrow with (R' := D Z); [|apply t_false, d_fft0; auto].
      intros s [Hs HG]. unfold arr_ctor, andthen, malloc_to. destruct (fail (nreq s)); unfold check; cbn [set_ptr ptr]; rewrite upd_eq.
      * split.
        -- exists 0. eapply F_weak; [apply (Inv_none _ _ _ _ _ Work 1 Hs (HG Work HW))|discriminate| |]; intros j [].
        -- intros j Hj. cbn. destruct (name_dec Work j) as [<-|]; [apply upd_eq|rewrite upd_ne; auto].
      * split; [|split].
        -- eapply Inv_mono; [apply (Inv_acquire _ _ _ _ _ Work n Hs (HG Work HW))|auto| |auto].
           ++ unfold eng. intuition discriminate.
           ++ discriminate.
           ++ intros j [[]|Hj]. split; [right; auto|]. intros ->. unfold eng in Hj. intuition discriminate.
        -- intros j Hj. cbn. rewrite upd_ne; [apply HG; unfold Z; unfold others in Hj; tauto|]. intros <-. destruct Hj as [Hj _]. apply Hj. reflexivity.
        -- cbn. discriminate.
  - intros s (Hs & HG & HP). pose proof (t_take (sel n) (witheng nil) nil 0 Work ltac:(discriminate) s (conj Hs HP)) as H.
    pose proof (g_take (others CFFT) Work s HG) as H'. destruct (take Work s) as [[] s']; [|contradiction]. split; auto.
    exists 0. split; auto. eapply Inv_mono; [exact H| |intros j [Hj|Hj]|intros j Hj; right; exact Hj].
    + cbn. intros Hn. apply sel_1. apply negb_true_iff, Nat.eqb_neq in Hn. auto.
    + right. exact Hj.
    + left. right. auto.
Qed.
Lemma s_ctor k n : in_range k n -> (k = CBluestein -> 1 <= n) -> tri (fun s => s = fresh) (c_ctor fail k n) (fun s => Ready k n s /\ G (others k) s) Gone.
Proof.
  intros Hr Hb. destruct d_unwind as (U1 & U2 & U3).
  assert (Hf : forall k', D (others k') fresh) by (intros k'; split; [exists 0; exact base_fresh|apply G_fresh]).
  destruct k; [apply s_fft_ctor| | |]; (eapply tri_weak with (P := D _) (R := Gone); [|intros s ->; apply Hf|intros s Hs; exact Hs|auto]).
  - apply s_onthrow; [apply (s_class CReal n Hr Hb)|apply (gp_c_setup CReal)|exact U1].
  - apply s_onthrow; [apply (s_class CDct n Hr Hb)|apply (gp_c_setup CDct)|exact U2].
  - apply s_onthrow; [apply (s_class CBluestein n Hr Hb)|apply (gp_c_setup CBluestein)|exact U3].
Qed.

Lemma ready_base k n s : Ready k n s -> Base s.
Proof. intros (l & Hs & _). exists l. eapply F_weak; [exact Hs|discriminate| |]; intros j []. Qed.
Lemma life_ok k o s : life k fail o s -> Base s /\ G (others k) s /\ forall n, o = Some n -> Ready k n s.
Proof.
  induction 1 as [|n s Hr E|o s n s' Hl (IB & IG & IR) Hr E|o s n s' Hl (IB & IG & IR) Hr E|n s s' Hl (IB & IG & IR) Hc E].
  - split; [exists 0; exact base_fresh|]. split; [apply G_fresh|discriminate].
  - destruct (Nat.eq_dec n 0) as [->|Hn]; [destruct (Bool.bool_dec (match k with CBluestein => true | _ => false end) true) as [Hk|Hk]|].
    + destruct k; try discriminate. injection E as <-. split; [exists 0; exact base_fresh|]. split; [apply G_fresh|discriminate].
    + pose proof (s_ctor k 0 Hr ltac:(intros ->; destruct (Hk eq_refl)) fresh eq_refl) as H. rewrite E in H. destruct H as [H HG].
      split; [eapply ready_base; eauto|]. split; auto. intros n. destruct k; cbn; try (intros [= <-]; exact H).
    + pose proof (s_ctor k n Hr ltac:(lia) fresh eq_refl) as H. rewrite E in H. destruct H as [H HG].
      split; [eapply ready_base; eauto|]. split; auto. intros n'. unfold configured. rewrite (proj2 (Nat.eqb_neq n 0) Hn). destruct k; intros [= <-]; exact H.
  - pose proof (gp_c_setup k n s IG) as HG. rewrite E in HG.
    destruct (Nat.eq_dec n 0) as [->|Hn]; [destruct (Bool.bool_dec (match k with CBluestein => true | _ => false end) true) as [Hk|Hk]|].
    + destruct k; try discriminate. injection E as <-. auto.
    + pose proof (s_class k 0 Hr ltac:(intros ->; destruct (Hk eq_refl)) s IB) as H. rewrite E in H.
      split; [eapply ready_base; eauto|]. split; auto. intros n. destruct k; cbn; try (intros [= <-]; exact H). destruct (Hk eq_refl).
    + pose proof (s_class k n Hr ltac:(lia) s IB) as H. rewrite E in H.
      split; [eapply ready_base; eauto|]. split; auto. intros n'. unfold configured. rewrite (proj2 (Nat.eqb_neq n 0) Hn). destruct k; intros [= <-]; exact H.
  - pose proof (gp_c_setup k n s IG) as HG. rewrite E in HG. split; [|split; [exact HG|discriminate]].
    destruct (Nat.eq_dec n 0) as [->|Hn]; [destruct (Bool.bool_dec (match k with CBluestein => true | _ => false end) true) as [Hk|Hk]|].
    + destruct k; try discriminate.
    + pose proof (s_class k 0 Hr ltac:(intros ->; destruct (Hk eq_refl)) s IB) as H. rewrite E in H. exact H.
    + pose proof (s_class k n Hr ltac:(lia) s IB) as H. rewrite E in H. exact H.
  - pose proof (gp_c_call k s IG) as HG. rewrite E in HG. pose proof (s_call k n Hc s (IR n eq_refl)) as H. rewrite E in H.
    split; [eapply ready_base; eauto|]. split; auto. intros n' [= <-]. exact H.
Qed.
End Classes.

(** ** Theorems *)

(** C27: at every point of the life of an object -- whatever the sequence of setups and calls and whichever allocations
    fail -- every block was obtained fresh, released at most once, and accessed only while live ([legal]); the live
    blocks are exactly those the object's arrays (and obj) hold, each held by one of them *)
Theorem C27_blocks_owned_exactly_once : forall k fail o s, life k fail o s ->
  legal (hist s) /\ (forall b, live b (hist s) <-> exists i, ptr s i = Some b) /\ (forall i j b, ptr s i = Some b -> ptr s j = Some b -> i = j).
Proof. intros k fail o s H. destruct (life_ok fail k o s H) as ((l & Hs) & _). destruct Hs. auto. Qed.
Print Assumptions C27_blocks_owned_exactly_once.

(** C27: destroying the object, configured or not, after a failed setup or not, does not throw, releases only live blocks
    and leaves no block unreleased *)
Theorem C27_destructor_releases_everything : forall k fail o s, life k fail o s ->
  exists s', c_dtor k s = (true, s') /\ legal (hist s') /\ no_leak (hist s').
Proof.
  intros k fail o s H. destruct (life_ok fail k o s H) as (HB & HG & _). pose proof (d_c_dtor k s (conj HB HG)) as Hd.
  destruct (c_dtor k s) as [[] s'] eqn:E; [|contradiction]. exists s'. split; auto. apply gone_no_leak. exact Hd.
Qed.
Print Assumptions C27_destructor_releases_everything.

(** C27: a constructor that throws leaks nothing *)
Theorem C27_throwing_constructor_leaks_nothing : forall k fail n s, in_range k n -> c_ctor fail k n fresh = (false, s) ->
  legal (hist s) /\ no_leak (hist s).
Proof.
  intros k fail n s Hr E. apply gone_no_leak. destruct (Nat.eq_dec n 0) as [->|Hn].
  - destruct k; [..|discriminate].
    + pose proof (s_ctor fail CFFT 0 Hr ltac:(discriminate) fresh eq_refl) as H. rewrite E in H. exact H.
    + pose proof (s_ctor fail CReal 0 Hr ltac:(discriminate) fresh eq_refl) as H. rewrite E in H. exact H.
    + pose proof (s_ctor fail CDct 0 Hr ltac:(discriminate) fresh eq_refl) as H. rewrite E in H. exact H.
  - pose proof (s_ctor fail k n Hr ltac:(lia) fresh eq_refl) as H. rewrite E in H. exact H.
Qed.
Print Assumptions C27_throwing_constructor_leaks_nothing.

(** C27 for a single simd_array used on its own: any sequence of setup and destroy, then the destructor.  [Work] stands
    for the array. *)
Inductive aop := ASetup (n : nat) | ADestroy.
Definition arr_op (fail : nat -> bool) (a : aop) (s : st) : st :=
  snd (match a with ASetup n => arr_setup fail Work n | ADestroy => arr_destroy Work end s).
Definition arr_run (fail : nat -> bool) (l : list aop) (s : st) : st := fold_left (fun s a => arr_op fail a s) l s.
Theorem C27_array : forall fail l (ctor : option nat) s,
  (match ctor with Some n => arr_ctor fail Work n | None => arr_ctor0 Work end) fresh = (true, s) ->
  legal (hist (arr_run fail l s)) /\
  (forall b c, live b (hist (arr_run fail l s)) -> live c (hist (arr_run fail l s)) -> b = c) /\
  legal (hist (snd (arr_dtor Work (arr_run fail l s)))) /\ no_leak (hist (snd (arr_dtor Work (arr_run fail l s)))).
Proof.
  intros fail l ctor s E. set (Z := fun j => j <> Work).
  assert (H0 : F false nil nil 0 s /\ G Z s).
  { destruct ctor as [n|]; [|injection E as <-; split; [apply (Inv_none _ _ _ _ _ Work 0 base_fresh eq_refl)|]].
    - unfold arr_ctor, andthen, malloc_to in E. cbn [fresh nreq] in E. destruct (fail 0); [discriminate E|]. injection E as <-.
      split; [|intros j Hj; cbn; rewrite upd_ne; auto].
      eapply Inv_mono; [apply (Inv_acquire _ _ _ _ _ Work n base_fresh eq_refl)|auto| |auto].
      + unfold eng. intuition discriminate.
      + discriminate.
      + intros j [[]|Hj]. split; [right; auto|]. intros ->. unfold eng in Hj. intuition discriminate.
    - intros j Hj. cbn. rewrite upd_ne; auto. }
  assert (H : F false nil nil 0 (arr_run fail l s) /\ G Z (arr_run fail l s)).
  { clear E. revert s H0. unfold arr_run. induction l as [|a l IH]; intros s [Hs HG]; [split; auto|]. cbn [fold_left]. apply IH. unfold arr_op. destruct a as [n|].
    - pose proof (t_setup fail false (witheng nil) nil 0 Work n ltac:(discriminate) ltac:(unfold eng; intuition discriminate) s Hs) as H1.
      pose proof (g_setup fail Z Work n ltac:(unfold Z; auto) s HG) as H2. destruct (arr_setup fail Work n s) as [[] s']; cbn [snd]; (split; [|exact H2]);
      [destruct H1 as [H1 _]|]; (eapply Inv_mono; [exact H1|auto| |auto]); intros j [[]|Hj]; (split; [right; auto|]; intros ->; unfold eng in Hj; intuition discriminate).
    - pose proof (t_arr_dtor false nil nil 0 Work ltac:(discriminate) ltac:(unfold eng; intuition discriminate) s Hs) as H1.
      pose proof (g_dtor Z Work s HG) as H2. change (arr_destroy Work s) with (arr_dtor Work s). destruct (arr_dtor Work s) as [[] s']; [|contradiction]. cbn [snd].
      split; [eapply F_weak; [exact H1|auto| |auto]; intros j []|]. eapply G_weak; [exact H2|]. intros j Hj. left; auto. }
  destruct H as [Hs HG]. split; [apply Hs|]. split.
  - intros b c Hb Hc. apply (v_live _ _ _ _ _ Hs) in Hb as (i & Hi). apply (v_live _ _ _ _ _ Hs) in Hc as (j & Hj).
    destruct (name_dec i Work) as [->|Hn]; [|rewrite HG in Hi by exact Hn; discriminate].
    destruct (name_dec j Work) as [->|Hn]; [|rewrite HG in Hj by exact Hn; discriminate]. congruence.
  - pose proof (t_arr_dtor false nil nil 0 Work ltac:(discriminate) ltac:(unfold eng; intuition discriminate) _ Hs) as H1.
    pose proof (g_dtor Z Work _ HG) as H2. destruct (arr_dtor Work (arr_run fail l s)) as [[] s']; [|contradiction]. cbn [snd].
    apply gone_no_leak. split; [exists 0; eapply F_weak; [exact H1|auto| |auto]; intros j []|].
    intros i. apply H2. unfold plus, Z. destruct (name_dec i Work); auto.
Qed.
Print Assumptions C27_array.
(** a simd_array that holds a block must not be copied: after `simd_array b(a)` (no exception) destroying both releases the block twice,
    and so does the use of one after the destruction of the other access released memory *)
Theorem C27_array_copy_released_twice : forall fail l (ctor : option nat) s,
  (match ctor with Some n => arr_ctor fail Work n | None => arr_ctor0 Work end) fresh = (true, s) ->
  ptr (arr_run fail l s) Work <> None ->
  let copied := snd (arr_copy Work Wk1 (arr_run fail l s)) in
  fst (arr_copy Work Wk1 (arr_run fail l s)) = true /\ fst (arr_dtor Wk1 copied) = true /\ fst (arr_dtor Work (snd (arr_dtor Wk1 copied))) = true /\
  legal (hist copied) /\ legal (hist (snd (arr_dtor Wk1 copied))) /\
  ~ legal (hist (snd (arr_dtor Work (snd (arr_dtor Wk1 copied))))) /\
  ~ legal (hist (snd ((take Work ;> use Work) (snd (arr_dtor Wk1 copied))))).
Proof.
  intros fail l ctor s E Hp copied. destruct (C27_array fail l ctor s E) as (HL & _ & HL2 & _).
  unfold arr_dtor, andthen, free_of, do_, copied, arr_copy, take, use, event, set_ptr, set_ali in *. cbn [snd ptr hist ali] in *. unfold upd in *. cbn [name_beq] in *.
  destruct (ptr (arr_run fail l s) Work) as [b|] eqn:Eb; [|congruence]. cbn in *. rewrite ?Eb in *. cbn in *.
  split; [reflexivity|]. split; [reflexivity|]. split; [reflexivity|].
  split; [exact HL|]. split; [exact HL2|]. split; intros [_ [_ Hn]]; apply Hn; left; reflexivity.
Qed.
Print Assumptions C27_array_copy_released_twice.
(** the hypotheses are met *)
Example array_copy_example : exists s, arr_ctor (fun _ => false) Work 5 fresh = (true, s) /\ ptr (arr_run (fun _ => false) [ASetup 3] s) Work <> None.
Proof. eexists. split; [reflexivity|]. cbn. discriminate. Qed.

(** C32: a setup that throws leaves an object that can be destroyed ([C27_destructor_releases_everything] applies to
    [life k fail None s]) or set up again; after a later successful setup it is configured and calls access only live
    memory, whatever failed before *)
Theorem C32_setup_again_after_failure : forall k fail o s n s1 n' s2 s3, life k fail o s -> in_range k n -> in_range k n' -> 1 <= n' ->
  c_setup fail k n s = (false, s1) -> c_setup fail k n' s1 = (true, s2) ->
  life k fail (Some n') s2 /\ (callable k n' -> c_call k s2 = (true, s3) -> legal (hist s3)).
Proof.
  intros k fail o s n s1 n' s2 s3 Hl Hr Hr' Hn E1 E2.
  assert (H2 : life k fail (Some n') s2).
  { replace (Some n') with (configured k None n'); [exact (l_setup k fail None s1 n' s2 (l_throw k fail o s n s1 Hl Hr E1) Hr' E2)|].
    unfold configured. destruct (Nat.eqb_spec n' 0); [lia|]. destruct k; reflexivity. }
  split; auto. intros Hc E3. apply (C27_blocks_owned_exactly_once k fail (Some n') s3). eapply l_call; eauto.
Qed.
Print Assumptions C32_setup_again_after_failure.

Lemma fst_snd (b : bool) (p : bool * st) : fst p = b -> p = (b, snd p).
Proof. destruct p. cbn. intros ->. reflexivity. Qed.
(** C32, the limit: a method called on an object whose last setup threw accesses memory already released (the raw
    pointer beside the array that could not be allocated still points to the old block) *)
Theorem C32_stale_pointer_after_failed_setup : forall k, exists fail s s', life k fail None s /\ c_call k s = (true, s') /\ ~ legal (hist s').
Proof.
  assert (Hf : forall b h, legal h -> In (Free b) h -> ~ legal (Use b :: h)).
  { intros b h _ Hi [_ [_ Hn]]. contradiction. }
  intros k. pose (n1 := match k with CFFT => 4 | CReal => 8 | CDct => 8 | CBluestein => 2 end).
  pose (n2 := match k with CFFT => 8 | CReal => 16 | CDct => 16 | CBluestein => 3 end).
  pose (bad := match k with CFFT => 3 | CReal => 3 | CDct => 9 | CBluestein => 9 end).
  pose (fail := fun i => i =? bad).
  pose (s1 := snd (c_setup fail k n1 fresh)). pose (s2 := snd (c_setup fail k n2 s1)). pose (s3 := snd (c_call k s2)).
  exists fail, s2, s3.
  assert (Hr1 : in_range k n1) by (destruct k; cbn [in_range n1]; unfold INT_MAX; cbn; lia).
  assert (Hr2 : in_range k n2) by (destruct k; cbn [in_range n2]; unfold INT_MAX; cbn; lia).
  split; [|split].
  - apply (l_throw k fail (Some n1) s1 n2 s2).
    + replace (Some n1) with (configured k None n1) by (destruct k; reflexivity).
      apply (l_setup k fail None fresh n1 s1); [constructor|auto|]. subst s1 n1 fail bad. destruct k; apply fst_snd; vm_compute; reflexivity.
    + auto.
    + subst s2 s1 n1 n2 fail bad. destruct k; apply fst_snd; vm_compute; reflexivity.
  - subst s3 s2 s1 n1 n2 fail bad. destruct k; apply fst_snd; vm_compute; reflexivity.
  - subst s3 s2 s1 n1 n2 fail bad. destruct k; vm_compute; tauto.
Qed.
Print Assumptions C32_stale_pointer_after_failed_setup.

(** ** the hypotheses are met: an object constructed for length 4, a setup for 8 whose second allocation fails, a
    setup for 60 that succeeds, and a call *)
Example C27_example : exists s, life CFFT (fun i => i =? 3) (Some 60) s /\ length (hist s) = 12 /\ legal (hist s).
Proof.
  pose (fail := fun i => i =? 3).
  pose (s1 := snd (c_ctor fail CFFT 4 fresh)). pose (s2 := snd (c_setup fail CFFT 8 s1)). pose (s3 := snd (c_setup fail CFFT 60 s2)). pose (s4 := snd (c_call CFFT s3)).
  assert (L4 : life CFFT fail (Some 60) s4).
  { apply (l_call CFFT fail 60 s3 s4); [|cbn; lia|apply fst_snd; vm_compute; reflexivity].
    apply (l_setup CFFT fail None s2 60 s3); [|exact I|apply fst_snd; vm_compute; reflexivity].
    apply (l_throw CFFT fail (Some 4) s1 8 s2); [|exact I|apply fst_snd; vm_compute; reflexivity].
    apply (l_ctor CFFT fail 4 s1); [exact I|apply fst_snd; vm_compute; reflexivity]. }
  exists s4. split; [exact L4|]. split; [vm_compute; reflexivity|]. apply (C27_blocks_owned_exactly_once CFFT fail (Some 60) s4 L4).
Qed.
