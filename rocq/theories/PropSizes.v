(** * The two views of setup agree

    ModelArray.v follows the blocks an object obtains from the allocator, the other Model*.v files follow the contents of
    its tables in buffers of the sizes given by their [New] actions.  Here: for every class and length, a setup that
    succeeds in the first view holds, for every table, a block of exactly the number of elements the second view uses. *)

From Coq Require Import ZArith List Arith Bool Lia.
From Verif Require Import Scalar Object Lanes Twid ModelMixedClass ModelPow ModelSix ModelApi ModelReal ModelBluestein BluesteinRun ApiFacts ArrayFacts ModelArray PropArray.
Import ListNotations.

(** the buffer (relative to the object) in which the second view keeps a table *)
Definition buffer (k : cls) (i : name) : option nat :=
  match i with
  | EW => Some 0 | EWm => Some 1 | EWs => Some 2
  | _ => match k, i with
         | CFFT, Work => Some 3
         | CReal, Wu => Some 3
         | CDct, Wu => Some 3 | CDct, Wv => Some 4 | CDct, Wk1 => Some 5 | CDct, Wk2 => Some 6
         | CBluestein, Work => Some 3 | CBluestein, Wk1 => Some 4 | CBluestein, Wk2 => Some 5 | CBluestein, Wb => Some 6
         | _, _ => None
         end
  end.
(** the setup of the second view *)
Definition data_setup {Op : Ops} (k : cls) (b N : nat) : list (act C) :=
  match k with CFFT => fft_setup b N | CReal => rfft_setup b N | CDct => dct_setup b N | CBluestein => bl_setup b N end.
(** the number of elements of buffer x after a call: that of the last allocation of x in it ([d] if there is none) *)
Fixpoint size_after {V} (c : list (act V)) (x d : nat) : nat :=
  match c with
  | [] => d
  | New b n :: rest => size_after rest x (if b =? x then n else d)
  | Par _ :: rest => size_after rest x d
  end.
(** the complex transform inside an object of length N *)
Definition inner (k : cls) (N : nat) : nat :=
  match k with CFFT => N | CReal | CDct => N / 2 | CBluestein => match pad_loop 32 1 (2 * N - 1) with Some L => L | None => 0 end end.

(** ** what a computation that does not throw does to the blocks *)
Inductive eff := Same | Unknown | Null | Size (n : nat).
Definition over (d1 d2 : eff) : eff := match d2 with Same => d1 | _ => d2 end.
Definition sized (s s' : st) (i : name) (d : eff) : Prop :=
  match d with
  | Same => ptr s' i = ptr s i
  | Unknown => True
  | Null => ptr s' i = None
  | Size n => exists b, ptr s' i = Some b /\ In (ModelArray.Alloc b n) (hist s')
  end.
Definition does (c : cmd) (D : name -> eff) : Prop := forall s s', c s = (true, s') -> incl (hist s) (hist s') /\ forall i, sized s s' i (D i).
Definition at_ (i : name) (d : eff) : name -> eff := fun j => if name_beq i j then d else Same.
Definition then_ (D E : name -> eff) : name -> eff := fun i => over (D i) (E i).
Notation Nil := (fun _ : name => Same).

Lemma does_seq c d D E : does c D -> does d E -> does (c ;> d) (then_ D E).
Proof.
  intros H1 H2 s s' E1. unfold andthen in E1. destruct (c s) as [[] s1] eqn:Ec; [|discriminate]. destruct (H1 _ _ Ec) as [I1 P1]. destruct (H2 _ _ E1) as [I2 P2].
  split; [intros e He; auto|]. intros i. specialize (P1 i). specialize (P2 i). unfold then_, over, sized in *. destruct (E i); auto. rewrite P2.
  destruct (D i); auto. destruct P1 as (b & Hb & Hi). exists b. auto.
Qed.
Lemma does_ext c D E : does c D -> (forall i, D i = E i) -> does c E.
Proof. intros H HE s s' Ec. destruct (H _ _ Ec) as [I P]. split; auto. intros i. rewrite <- HE. auto. Qed.
Lemma does_onthrow c h D : does c D -> does (onthrow c h) D.
Proof. intros H s s' E. unfold onthrow in E. destruct (c s) as [[] s1] eqn:Ec; [injection E as <-; auto|]. destruct (h s1) as [b s2]. discriminate. Qed.
Ltac prim := intros s s' E; cbn in E; try (injection E as <-); split; [cbn; auto using incl_refl, incl_tl|]; intros j; unfold at_; cbn; try (destruct j; reflexivity).
Lemma does_ok : does ok Nil.
Proof. prim. Qed.
Lemma does_len n : does (do_ (set_len n)) Nil.
Proof. prim. Qed.
Lemma does_bad e : does (do_ (event e)) Nil.
Proof. prim. Qed.
Lemma does_take i : does (take i) Nil.
Proof. prim. Qed.
Lemma does_null i : does (null i) Nil.
Proof. prim. Qed.
Lemma does_use i : does (use i) Nil.
Proof. intros s s' E. unfold use in E. destruct (ali s i); injection E as <-; (split; [cbn; auto using incl_tl, incl_refl|reflexivity]). Qed.
Lemma does_free i : does (free_of i) Nil.
Proof. intros s s' E. unfold free_of in E. destruct (ptr s i); injection E as <-; (split; [cbn; auto using incl_tl, incl_refl|reflexivity]). Qed.
Lemma does_set i : does (do_ (set_ptr i None)) (at_ i Null).
Proof. intros s s' E. injection E as <-. split; [apply incl_refl|]. intros j. unfold at_. destruct (name_beq i j) eqn:Ej; cbn; unfold upd; rewrite Ej; reflexivity. Qed.
Lemma does_acquire fail i n : does (malloc_to fail i n ;> check i) (at_ i (Size n)).
Proof.
  intros s s' E. unfold andthen, malloc_to, check in E.
  assert (R : name_beq i i = true) by (destruct i; reflexivity).
  destruct (fail (nreq s)); cbn in E; unfold upd in E; rewrite R in E; [discriminate|]. injection E as <-. split; [cbn; auto using incl_tl, incl_refl|].
  intros j. unfold at_. destruct (name_beq i j) eqn:Ej; cbn; unfold upd; rewrite Ej; [|reflexivity]. exists (nreq s). auto.
Qed.
Lemma does_setup fail i n : does (arr_setup fail i n) (at_ i (Size n)).
Proof.
  unfold arr_setup. intros s s' E. assert (E' : (free_of i ;> (malloc_to fail i n ;> check i)) s = (true, s')).
  { revert E. unfold andthen. destruct (free_of i s) as [[] s1]; auto. }
  exact (does_ext _ _ (at_ i (Size n)) (does_seq _ _ _ _ (does_free i) (does_acquire fail i n)) (fun j => ltac:(unfold then_, at_, over; destruct (name_beq i j); reflexivity)) s s' E').
Qed.
Lemma does_ctor0 i : does (arr_ctor0 i) (at_ i Null).
Proof. apply does_set. Qed.
Lemma does_dtor i : does (arr_dtor i) (at_ i Null).
Proof. eapply does_ext; [apply does_seq; [apply does_free|apply does_set]|]. intros j. unfold then_, at_, over. destruct (name_beq i j); reflexivity. Qed.

(** the effect of each program, read off its text; [rd] reads the final effect *)
Ltac go := repeat first [match goal with |- does (_ ;> _) _ => apply does_seq end | apply does_ok | apply does_len | apply does_bad | apply does_take | apply does_null | apply does_use | apply does_setup | apply does_ctor0 | apply does_dtor | apply does_free | apply does_set | apply does_acquire].

Lemma does_table fail i n : does (table fail i n) (at_ i (Size n)).
Proof. unfold table. eapply does_ext; [go|]. intros j. unfold then_, at_, over. destruct (name_beq i j); reflexivity. Qed.
Lemma does_reset : does obj_reset_arr (fun i => match i with Obj | EW | EWm | EWs | EIv => Unknown | _ => Same end).
Proof.
  intros s s' E. unfold obj_reset_arr in E. destruct (ptr s Obj) as [b|]; [|injection E as <-; split; [apply incl_refl|intros []; exact I || reflexivity]].
  assert (H : does (arr_dtor EIv ;> arr_dtor EWs ;> arr_dtor EWm ;> arr_dtor EW ;> null EIv ;> null EWs ;> null EWm ;> null EW ;> free_of Obj ;> do_ (set_ptr Obj None))
    (fun i => match i with Obj | EW | EWm | EWs | EIv => Null | _ => Same end)) by (eapply does_ext; [go|]; intros []; reflexivity).
  destruct (H s s' E) as [HI HP]. split; auto. intros i. specialize (HP i). destruct i; auto; exact I.
Qed.
Lemma does_instance fail : does (instance fail) (fun i => match i with Obj => Size 1 | EW | EWm | EWs | EIv => Null | _ => Same end).
Proof. unfold instance. eapply does_ext; [repeat (apply does_seq; [|first [apply does_null | apply does_ctor0]]); apply does_acquire|]. intros []; reflexivity. Qed.

(** tables of an algorithm object *)
Definition engine_eff (e : engine) : name -> eff :=
  match e with
  | EMixed N => at_ EW (Size (N + 1))
  | EPow a n => if 2 ^ n <=? radix a then Nil else at_ EW (Size (if 2 ^ n <? omp_min a then 2 * 2 ^ n else 2 ^ n / radix a))
  | ESix n =>
      if n <=? 5 then (if 2 ^ n <=? 8 then Nil else at_ EW (Size (2 * 2 ^ n)))
      else if Nat.odd n then
        let m := 2 ^ (n / 2 - 1) in
        fun i => match i with EW => Size (2 ^ n / 8) | EWm => Size (m * (m + 2) / 2) | EIv => Size (m / 2 * (m / 2 + 1) / 2) | EWs => if m <=? 8 then Same else Size (2 * m) | _ => Same end
      else
        let m := 2 ^ (n / 2) in
        fun i => match i with EW => Size (m * (m + 2) / 2) | EIv => Size (m / 2 * (m / 2 + 1) / 2) | EWs => if m <=? 8 then Same else Size (2 * m) | _ => Same end
  end.
Lemma does_sub fail i n : does (sub_arr fail i n) (if n <=? 8 then Nil else at_ i (Size (2 * n))).
Proof. unfold sub_arr. destruct (n <=? 8); [apply does_null|apply does_table]. Qed.
Lemma does_nxn fail i n : i <> EIv -> does (nxn_arr fail i n) (fun j => match j with EIv => Size (n / 2 * (n / 2 + 1) / 2) | _ => at_ i (Size (n * (n + 2) / 2)) j end).
Proof. intros Hi. unfold nxn_arr. cbv zeta. eapply does_ext; [go|]. intros j. unfold then_, at_, over. destruct i, j; try reflexivity; congruence. Qed.
Lemma does_engine fail e : does (engine_arr fail e) (engine_eff e).
Proof.
  destruct e as [a n|n|N]; cbn [engine_arr engine_eff].
  - unfold pow_arr. cbv zeta. destruct (2 ^ n <=? radix a); [apply does_null|]. destruct (2 ^ n <? omp_min a); apply does_table.
  - unfold six_arr. cbv zeta. destruct (n <=? 5); [apply does_sub|]. destruct (Nat.odd n).
    + eapply does_ext; [apply does_seq; [apply does_seq; [apply does_table|apply does_nxn; discriminate]|apply does_sub]|].
      intros j. unfold then_, at_, over. destruct (2 ^ (n / 2 - 1) <=? 8); destruct j; reflexivity.
    + eapply does_ext; [apply does_seq; [apply does_nxn; discriminate|apply does_sub]|].
      intros j. unfold then_, at_, over. destruct (2 ^ (n / 2) <=? 8); destruct j; reflexivity.
  - apply does_table.
Qed.
Lemma does_fft0 fail n e : select n = Some e ->
  does (fft0_arr fail n) (then_ (fun i => match i with Obj => Size 1 | EW | EWm | EWs | EIv => Null | _ => Same end) (engine_eff e)).
Proof.
  intros He. unfold fft0_arr. rewrite He. eapply does_ext; [apply does_seq; [apply does_reset|apply does_onthrow, does_seq; [apply does_instance|apply does_engine]]|].
  intros i. unfold then_, over. destruct (engine_eff e i); destruct i; reflexivity.
Qed.
Lemma engine_eff_own e i : match i with EW | EWm | EWs | EIv => True | _ => engine_eff e i = Same end.
Proof. destruct e as [a n|n|N]; cbn [engine_eff]; [destruct (2 ^ n <=? radix a)|destruct (n <=? 5); [destruct (2 ^ n <=? 8)|destruct (Nat.odd n)]|]; destruct i; auto. Qed.
Lemma engine_eff_known e i : engine_eff e i <> Unknown.
Proof.
  assert (D : forall (b : bool) (x y : eff), x <> Unknown -> y <> Unknown -> (if b then x else y) <> Unknown) by (intros [] x y; auto).
  destruct e as [a n|n|N]; cbn [engine_eff]; cbv zeta; [destruct (2 ^ n <=? radix a)|destruct (n <=? 5); [destruct (2 ^ n <=? 8)|destruct (Nat.odd n)]|]; destruct i; unfold at_; cbn [name_beq]; try discriminate; apply D; discriminate.
Qed.

(** ** sizes in the second view *)
Lemma size_after_app {V} (c d : list (act V)) x k : size_after (c ++ d) x k = size_after d x (size_after c x k).
Proof. revert k. induction c as [|[b n|r] c IH]; intros k; cbn; auto. Qed.
Lemma size_after_pars {V} (c : list (act V)) x k : (forall b n, ~ In (New b n) c) -> size_after c x k = k.
Proof. revert k. induction c as [|[b n|r] c IH]; intros k H; cbn; auto; [exfalso; apply (H b n); left; auto|]. apply IH. intros b n Hi. apply (H b n). right. auto. Qed.
(** the size a table of the algorithm object ends up with *)
Definition eff_size (d : eff) : nat := match d with Size n => n | _ => 0 end.
Lemma size_init_Wt {Op : Ops} r N w x k : size_after (init_Wt r N w) x k = k.
Proof. apply size_after_pars. unfold init_Wt, loop_w. intros b n H. repeat match type of H with context [if ?c then _ else _] => destruct c end; cbn in H; intuition congruence. Qed.
Lemma size_init_Wr1 {Op : Ops} r N w x k : size_after (init_Wr1 r N w) x k = k.
Proof. apply size_after_pars. unfold init_Wr1, loop_w. intros b n H. repeat match type of H with context [if ?c then _ else _] => destruct c end; cbn in H; intuition congruence. Qed.
Lemma size_sub {Op : Ops} n b x k : size_after (init_weight_sub n b) x k = if n <=? 8 then k else if b =? x then 2 * n else k.
Proof. unfold init_weight_sub. destruct (n <=? 8); [reflexivity|]. cbn [size_after]. rewrite size_init_Wt. reflexivity. Qed.
Lemma size_nxn {Op : Ops} n b x k : size_after (init_weight_nxn n b) x k = if b =? x then n * (n + 2) / 2 else k.
Proof.
  unfold init_weight_nxn. cbn [size_after]. rewrite size_after_app. unfold init_Wnxn. destruct (n * n <? six_omp), (init_iv n); reflexivity.
Qed.
Lemma size_8xm {Op : Ops} n b x k : size_after (init_weight_8xm n b) x k = if b =? x then n / 8 else k.
Proof. unfold init_weight_8xm. cbn [size_after]. destruct (n / 8 <? six_omp); reflexivity. Qed.
Lemma size_engine {Op : Ops} e b i o : match i with EW => o = 0 | EWm => o = 1 | EWs => o = 2 | _ => False end ->
  size_after (engine_setup b e) (b + o) 0 = eff_size (engine_eff e i).
Proof.
  intros Ho. assert (B1 : (b =? b + 0) = true) by (apply Nat.eqb_eq; lia). assert (B2 : (S b =? b + 1) = true) by (apply Nat.eqb_eq; lia). assert (B3 : (S (S b) =? b + 2) = true) by (apply Nat.eqb_eq; lia).
  assert (C1 : (b =? b + 1) = false) by (apply Nat.eqb_neq; lia). assert (C2 : (b =? b + 2) = false) by (apply Nat.eqb_neq; lia).
  assert (C3 : (S b =? b + 0) = false) by (apply Nat.eqb_neq; lia). assert (C4 : (S b =? b + 2) = false) by (apply Nat.eqb_neq; lia).
  assert (C5 : (S (S b) =? b + 0) = false) by (apply Nat.eqb_neq; lia). assert (C6 : (S (S b) =? b + 1) = false) by (apply Nat.eqb_neq; lia).
  destruct e as [a n|n|N]; cbn [engine_setup engine_eff].
  - unfold pow_setup2. cbv zeta. destruct (2 ^ n <=? radix a); [destruct i; try contradiction; reflexivity|].
    destruct (2 ^ n <? omp_min a); [unfold pow_setup_serial|unfold pow_setup_parallel]; cbn [size_after]; rewrite ?size_init_Wt, ?size_init_Wr1; destruct i; try contradiction; subst o; rewrite ?B1, ?C1, ?C2; reflexivity.
  - unfold six_setup2. cbv zeta. destruct (n <=? 5).
    + rewrite size_sub. destruct (2 ^ n <=? 8); destruct i; try contradiction; subst o; rewrite ?B1, ?C1, ?C2; reflexivity.
    + destruct (Nat.odd n); rewrite ?size_after_app, ?size_sub, ?size_nxn, ?size_8xm; destruct i; try contradiction; subst o; rewrite ?B1, ?B2, ?B3, ?C1, ?C2, ?C3, ?C4, ?C5, ?C6; try reflexivity;
      try (destruct (_ <=? 8); reflexivity).
  - unfold mixed_setup, mixed_setup_serial, mixed_setup_parallel, sloop, ploop. destruct (N <? mixed_omp); cbn [size_after]; destruct i; try contradiction; subst o; rewrite ?B1, ?C1, ?C2; reflexivity.
Qed.
Lemma size_fft0 {Op : Ops} b n e o d : select n = Some e -> size_after (fft0_setup b n) (b + o) d = if o <? 3 then eff_size (engine_eff e (match o with 0 => EW | 1 => EWm | _ => EWs end)) else size_after (engine_setup b e) (b + o) d.
Proof.
  intros He. unfold fft0_setup. rewrite He, size_after_app. unfold obj_reset. cbn [size_after].
  destruct (Nat.ltb_spec o 3) as [Ho|Ho].
  - assert (E : (if S (S b) =? b + o then 0 else if S b =? b + o then 0 else if b =? b + o then 0 else d) = 0).
    { assert (C : o = 0 \/ o = 1 \/ o = 2) by lia. destruct C as [-> | [-> | ->]].
      - replace (b =? b + 0) with true by (symmetry; apply Nat.eqb_eq; lia). destruct (S (S b) =? b + 0), (S b =? b + 0); reflexivity.
      - replace (S b =? b + 1) with true by (symmetry; apply Nat.eqb_eq; lia). destruct (S (S b) =? b + 1); reflexivity.
      - replace (S (S b) =? b + 2) with true by (symmetry; apply Nat.eqb_eq; lia). reflexivity. }
    rewrite E. apply size_engine. assert (C : o = 0 \/ o = 1 \/ o = 2) by lia. destruct C as [-> | [-> | ->]]; reflexivity.
  - f_equal. replace (b =? b + o) with false by (symmetry; apply Nat.eqb_neq; lia). replace (S b =? b + o) with false by (symmetry; apply Nat.eqb_neq; lia). replace (S (S b) =? b + o) with false by (symmetry; apply Nat.eqb_neq; lia). reflexivity.
Qed.
Lemma size_engine_other {Op : Ops} b e o d : 3 <= o -> size_after (engine_setup b e) (b + o) d = d.
Proof.
  intros Ho. assert (C1 : (b =? b + o) = false) by (apply Nat.eqb_neq; lia). assert (C3 : (S b =? b + o) = false) by (apply Nat.eqb_neq; lia). assert (C5 : (S (S b) =? b + o) = false) by (apply Nat.eqb_neq; lia).
  destruct e as [a n|n|N]; cbn [engine_setup].
  - unfold pow_setup2. cbv zeta. destruct (2 ^ n <=? radix a); [reflexivity|].
    destruct (2 ^ n <? omp_min a); [unfold pow_setup_serial|unfold pow_setup_parallel]; cbn [size_after]; rewrite ?size_init_Wt, ?size_init_Wr1, C1; reflexivity.
  - unfold six_setup2. cbv zeta. destruct (n <=? 5); [rewrite size_sub, C1; destruct (2 ^ n <=? 8); reflexivity|].
    destruct (Nat.odd n); rewrite ?size_after_app, ?size_sub, ?size_nxn, ?size_8xm, ?C1, ?C3, ?C5; destruct (_ <=? 8); reflexivity.
  - unfold mixed_setup, mixed_setup_serial, mixed_setup_parallel, sloop, ploop. destruct (N <? mixed_omp); cbn [size_after]; rewrite C1; reflexivity.
Qed.
Lemma size_table {Op : Ops} N U x d : size_after (rfft_table N U) x d = d.
Proof. unfold rfft_table. repeat match goal with |- context [if ?c then _ else _] => destruct c end; reflexivity. Qed.

(** the effect of a setup *)
Definition rest_eff (k : cls) (N : nat) : name -> eff := fun i =>
  match k, i with
  | CFFT, Work => Size N
  | CReal, Wu => Size (N + 1)
  | CDct, Wu => Size (N + 1) | CDct, Wv => Size (N + 1) | CDct, Wk1 => Size N | CDct, Wk2 => Size N
  | CBluestein, Work => Size (inner CBluestein N) | CBluestein, Wk1 => Size (inner CBluestein N) | CBluestein, Wk2 => Size (inner CBluestein N) | CBluestein, Wb => Size (2 * N + 1)
  | _, Obj => Size 1
  | _, _ => Null
  end.
Definition setup_eff (k : cls) (N : nat) (e : engine) : name -> eff := fun i =>
  match i with EW | EWm | EWs | EIv => over Null (engine_eff e i) | _ => match buffer k i, i with None, Obj => Size 1 | None, _ => Same | Some _, _ => rest_eff k N i end end.

Lemma does_rfft fail n e : select (n / 2) = Some e ->
  does (rfft_arr fail n) (then_ (then_ (fun i => match i with Obj => Size 1 | EW | EWm | EWs | EIv => Null | _ => Same end) (engine_eff e)) (at_ Wu (Size (n + 1)))).
Proof.
  intros He. unfold rfft_arr. eapply does_ext; [apply does_seq; [go; apply does_fft0; exact He|]|].
  - instantiate (1 := Nil). destruct (n <? 1); go.
  - intros i. unfold then_, at_. pose proof (engine_eff_own e i) as Ho. destruct i; cbn; try rewrite Ho; try (destruct (engine_eff e _)); reflexivity.
Qed.
Lemma setup_does fail k N e : in_range k N -> (k = CBluestein -> 1 <= N) -> select (inner k N) = Some e -> does (c_setup fail k N) (setup_eff k N e).
Proof.
  intros Hr H1 He. destruct k; cbn [c_setup] in *.
  - unfold fft_arr. eapply does_ext; [go; apply does_fft0; exact He|]. intros i. unfold then_, at_. pose proof (engine_eff_own e i) as Ho. destruct i; cbn; try rewrite Ho; try reflexivity; unfold over; destruct (engine_eff e _); reflexivity.
  - eapply does_ext; [apply does_rfft; exact He|]. intros i. unfold then_, at_. pose proof (engine_eff_own e i) as Ho. destruct i; cbn; try rewrite Ho; try reflexivity; unfold over; destruct (engine_eff e _); reflexivity.
  - unfold dct_arr, dct0_arr. cbn [in_range] in Hr. rewrite (mul_ok_range N Hr). cbn [negb].
    eapply does_ext; [go; [apply does_rfft; exact He|]|].
    + instantiate (1 := Nil). destruct (N <? 2); go.
    + intros i. unfold then_, at_. pose proof (engine_eff_own e i) as Ho. destruct i; cbn; try rewrite Ho; try reflexivity; unfold over; destruct (engine_eff e _); reflexivity.
  - specialize (H1 eq_refl). unfold bl_arr. destruct (Nat.ltb_spec N 1); [lia|]. destruct (mul_ok 2 N) eqn:Hm; cbn [negb].
    2:{ exfalso. revert Hm. apply eq_true_false_abs. apply mul_ok_range. cbn [in_range] in Hr. change (2 ^ 29)%Z with 536870912%Z in Hr. change INT_MAX with 2147483647%Z. lia. }
    cbn [inner] in He. unfold setup_eff, rest_eff, inner. destruct (bl_pad N (conj H1 Hr)) as (l & El & _). rewrite El in *. clear El. set (L := 2 ^ l) in *.
    unfold fft_arr. eapply does_ext; [go; apply does_fft0; exact He|]. intros i. unfold then_, at_. pose proof (engine_eff_own e i) as Ho. destruct i; cbn; try rewrite Ho; try reflexivity; unfold over; destruct (engine_eff e _); reflexivity.
Qed.

(** the same sizes in the second view *)
Lemma setup_sizes {Op : Ops} k b N e i o d : in_range k N -> (k = CBluestein -> 1 <= N) -> select (inner k N) = Some e -> buffer k i = Some o ->
  size_after (data_setup k b N) (b + o) d = eff_size (setup_eff k N e i).
Proof.
  intros Hr H1 He Ho.
  assert (Q : forall u v, (b + u =? b + v) = (u =? v)) by (intros u v; destruct (Nat.eqb_spec u v), (Nat.eqb_spec (b + u) (b + v)); auto; lia).
  assert (EE : forall u j, match j with EW => u = 0 | EWm => u = 1 | EWs => u = 2 | _ => False end -> forall n, select n = Some e -> forall d, size_after (fft0_setup b n) (b + u) d = eff_size (over Null (engine_eff e j))).
  { intros u j Hj n Hn d'. rewrite (size_fft0 b n e u d' Hn). destruct j; try contradiction; subst u; cbn [Nat.ltb Nat.leb]; destruct (engine_eff e _); reflexivity. }
  assert (EO : forall u n, 3 <= u -> select n = Some e -> forall d, size_after (fft0_setup b n) (b + u) d = d).
  { intros u n Hu Hn d'. rewrite (size_fft0 b n e u d' Hn). destruct (Nat.ltb_spec u 3); [lia|]. apply size_engine_other. exact Hu. }
  assert (RF : forall u n d, size_after (rfft_setup b n) (b + u) d = if 3 =? u then n + 1 else size_after (fft0_setup b (n / 2)) (b + u) d).
  { intros u n d'. unfold rfft_setup. rewrite size_after_app. cbn [size_after]. rewrite size_table, Q. reflexivity. }
  assert (DF : forall u n d, mul_ok 2 n = true -> size_after (dct_setup b n) (b + u) d = if 6 =? u then n else if 5 =? u then n else if 4 =? u then n + 1 else size_after (rfft_setup b n) (b + u) d).
  { intros u n d' Hm. unfold dct_setup, dct0_setup. rewrite !size_after_app. cbn [size_after]. rewrite Hm, !Q. cbn [negb].
    rewrite (size_after_pars (if n <? 2 then _ else _)) by (intros ? ?; destruct (n <? 2), (n <? base_omp_w); cbn; intuition discriminate). reflexivity. }
  assert (FF : forall u n d, size_after (fft_setup b n) (b + u) d = if 3 =? u then n else size_after (fft0_setup b n) (b + u) d).
  { intros u n d'. unfold fft_setup. rewrite size_after_app. cbn [size_after]. rewrite Q. reflexivity. }
  destruct k; cbn [data_setup].
  - rewrite FF. cbn [inner] in He. destruct i; cbn [buffer] in Ho; try discriminate; injection Ho as <-; cbn [Nat.eqb setup_eff]; try (apply EE; auto); reflexivity.
  - rewrite RF. cbn [inner] in He. destruct i; cbn [buffer] in Ho; try discriminate; injection Ho as <-; cbn [Nat.eqb setup_eff]; try (apply EE; auto); reflexivity.
  - rewrite DF, RF by (apply mul_ok_range; exact Hr). cbn [inner] in He. destruct i; cbn [buffer] in Ho; try discriminate; injection Ho as <-; cbn [Nat.eqb setup_eff]; try (apply EE; auto); reflexivity.
  - specialize (H1 eq_refl). unfold bl_setup. cbv zeta. destruct (Nat.ltb_spec N 1); [lia|]. destruct (mul_ok 2 N) eqn:Hm; cbn [negb].
    2:{ exfalso. revert Hm. apply eq_true_false_abs. apply mul_ok_range. cbn [in_range] in Hr. change (2 ^ 29)%Z with 536870912%Z in Hr. change INT_MAX with 2147483647%Z. lia. }
    cbn [inner] in He. unfold setup_eff, rest_eff, inner. destruct (bl_pad N (conj H1 Hr)) as (l & El & _). rewrite El in *. clear El. set (L := 2 ^ l) in *.
    rewrite !size_after_app. cbn [size_after app]. rewrite size_after_pars by (intros ? ?; destruct (N <? base_omp_w); cbn; intuition discriminate).
    rewrite FF, !Q. destruct i; cbn [buffer] in Ho; try discriminate; injection Ho as <-; cbn [Nat.eqb]; try (apply EE; auto); reflexivity.
Qed.

(** C27: after a setup that succeeds -- whatever the object was before -- every table holds a block of exactly the size
    that the transforms (C07) are allowed to access, or no block if that size is 0 *)
Theorem C27_tables_have_the_accessed_size : forall (Op : Ops) k fail s N s' b, in_range k N -> (k = CBluestein -> 1 <= N) -> select (inner k N) <> None ->
  c_setup fail k N s = (true, s') -> forall i o, buffer k i = Some o ->
  let n := size_after (data_setup k b N) (b + o) 0 in
  match ptr s' i with
  | Some blk => In (Alloc blk n) (hist s')
  | None => n = 0
  end.
Proof.
  intros Op k fail s N s' b Hr H1 Hs E i o Ho n. destruct (select (inner k N)) as [e|] eqn:He; [|congruence]. clear Hs.
  destruct (setup_does fail k N e Hr H1 He s s' E) as [_ HP]. specialize (HP i). unfold n. rewrite (setup_sizes k b N e i o 0 Hr H1 He Ho).
  assert (D : setup_eff k N e i = Null \/ exists z, setup_eff k N e i = Size z).
  { pose proof (engine_eff_known e i) as HU. destruct i; cbn [setup_eff]; try (destruct (engine_eff e _) as [| | |z]; [left; reflexivity|congruence|left; reflexivity|right; exists z; reflexivity]); destruct k; cbn [buffer] in *; try discriminate; cbn [rest_eff]; eauto. }
  destruct D as [D|[z D]]; rewrite D in *; cbn [sized eff_size] in *; [rewrite HP; reflexivity|]. destruct HP as (blk & -> & HI). exact HI.
Qed.
Print Assumptions C27_tables_have_the_accessed_size.
(** the index table of the six-step algorithm has one element per pair of 2x2 blocks on or above the diagonal *)
Lemma pk_pairs_length m : length (pk_pairs (2 * m)) = m * (m + 1) / 2.
Proof.
  unfold pk_pairs. replace ((2 * m + 1) / 2) with m by (apply (Nat.div_unique (2 * m + 1) 2 m 1); lia).
  assert (H : forall k, k <= m -> 2 * length (flat_map (fun q => let p := 2 * q in map (fun j => (p, p + 2 * j)) (seq 0 ((2 * m - p + 1) / 2))) (seq (m - k) k)) = k * (k + 1)).
  { induction k as [|k IH]; intros Hk; [reflexivity|]. cbn [seq flat_map]. rewrite app_length, map_length, seq_length.
    replace (S (m - S k)) with (m - k) by lia. replace (2 * m - 2 * (m - S k) + 1) with (2 * S k + 1) by lia.
    replace ((2 * S k + 1) / 2) with (S k) by (apply (Nat.div_unique (2 * S k + 1) 2 (S k) 1); lia). specialize (IH ltac:(lia)). cbv zeta in *. lia. }
  specialize (H m ltac:(lia)). rewrite Nat.sub_diag in H. cbv zeta in H. apply (Nat.div_unique _ 2 _ 0); lia.
Qed.
(** side of the square in the six-step transform of length 2^n *)
Definition six_side (n : nat) : nat := if Nat.odd n then 2 ^ (n / 2 - 1) else 2 ^ (n / 2).
Theorem C27_index_table_size : forall k fail s N s' n, in_range k N -> (k = CBluestein -> 1 <= N) -> select (inner k N) = Some (ESix n) -> 6 <= n ->
  c_setup fail k N s = (true, s') -> exists blk, ptr s' EIv = Some blk /\ In (Alloc blk (length (pk_pairs (six_side n)))) (hist s').
Proof.
  intros k fail s N s' n Hr H1 He Hn E. destruct (setup_does fail k N _ Hr H1 He s s' E) as [_ HP]. specialize (HP EIv). cbn [setup_eff engine_eff] in HP.
  destruct (Nat.leb_spec n 5); [lia|]. unfold six_side.
  assert (X : forall q, 1 <= q -> length (pk_pairs (2 ^ q)) = 2 ^ q / 2 * (2 ^ q / 2 + 1) / 2).
  { intros q Hq. destruct q as [|q]; [lia|]. rewrite Nat.pow_succ_r'. rewrite (Nat.mul_comm 2 (2 ^ q)) at 2 3. rewrite Nat.div_mul by lia. apply pk_pairs_length. }
  assert (3 <= n / 2) by (apply Nat.div_le_lower_bound; lia).
  destruct (Nat.odd n); cbn [over sized] in HP; rewrite X by lia; exact HP.
Qed.
Print Assumptions C27_index_table_size.
(** examples: the hypotheses are met *)
Example sizes_example : forall k, k = CFFT \/ k = CReal \/ k = CDct \/ k = CBluestein -> fst (c_setup (fun _ => false) k 10 fresh) = true /\ (k = CBluestein -> 1 <= 10) /\ select (inner k 10) <> None.
Proof. intros k [-> | [-> | [-> | ->]]]; (split; [vm_compute; reflexivity|]; split; [lia|]; vm_compute; discriminate). Qed.
Example six_selected : in_range CFFT (2 ^ 22) /\ select (inner CFFT (2 ^ 22)) = Some (ESix 22) /\ 6 <= 22.
Proof.
  split; [exact I|]. split; [|lia]. cbn [inner]. unfold select. rewrite log_loop_spec by apply Nat.le_refl. rewrite Nat.log2_pow2 by lia.
  cbn [Nat.add]. rewrite Nat.eqb_refl. reflexivity.
Qed.
