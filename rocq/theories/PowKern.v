(** * Every power-of-two kernel is a butterfly pass (any arithmetic) *)

From Coq Require Import List Arith Bool Lia.
From Verif Require Import Scalar Mem MemFacts Omp OmpFacts Lanes Stage CoreStage Twid KernelFacts MixedDrive ModelPow PowDrive.
From Verif Require Import ModelDif4 ModelDif8 ModelDif16 ModelDit4 ModelDit8 ModelDit16.
Import ListNotations.

Section PowKern.
Context {Op : Ops}.
Notation prog := (prog C).
Notation phase := (phase (V:=C)).

(** ** which twiddles a kernel reads, and what its lanes compute *)
Definition tw_s (r m s p : nat) : list nat :=
  if s =? 1 then map (fun k => p + (k - 1) * m) (seq 1 (r - 1))
  else map (fun k => r * (s * p) + (r * m * s + k)) (seq 1 (r - 1)).
Definition tw_o (s p : nat) : list nat := [s * p].
Definition ktw (o : bool) (a : alg) (m s p : nat) : list nat := if o then tw_o s p else tw_s (radix a) m s p.

Definition kf (o : bool) (a : alg) (inv : bool) (s : nat) : list C -> list C :=
  match a with
  | DIF4 => if o then (if inv then (if s =? 1 then dif4o_invcore1_fn else dif4o_invcore_fn) else (if s =? 1 then dif4o_fwdcore1_fn else dif4o_fwdcore_fn)) else (if inv then (if s =? 1 then dif4_invcore1_fn else dif4_invcore_fn) else (if s =? 1 then dif4_fwdcore1_fn else dif4_fwdcore_fn))
  | DIF8 => if o then (if inv then (if s =? 1 then dif8o_invcore1_fn else dif8o_invcore_fn) else (if s =? 1 then dif8o_fwdcore1_fn else dif8o_fwdcore_fn)) else (if inv then (if s =? 1 then dif8_invcore1_fn else dif8_invcore_fn) else (if s =? 1 then dif8_fwdcore1_fn else dif8_fwdcore_fn))
  | DIF16 => if o then (if inv then (if s =? 1 then dif16o_invcore1_fn else dif16o_invcore_fn) else (if s =? 1 then dif16o_fwdcore1_fn else dif16o_fwdcore_fn)) else (if inv then (if s =? 1 then dif16_invcore1_fn else dif16_invcore_fn) else (if s =? 1 then dif16_fwdcore1_fn else dif16_fwdcore_fn))
  | DIT4 => if o then (if inv then (if s =? 1 then dit4o_invcore1_fn else dit4o_invcore_fn) else (if s =? 1 then dit4o_fwdcore1_fn else dit4o_fwdcore_fn)) else (if inv then (if s =? 1 then dit4_invcore1_fn else dit4_invcore_fn) else (if s =? 1 then dit4_fwdcore1_fn else dit4_fwdcore_fn))
  | DIT8 => if o then (if inv then (if s =? 1 then dit8o_invcore1_fn else dit8o_invcore_fn) else (if s =? 1 then dit8o_fwdcore1_fn else dit8o_fwdcore_fn)) else (if inv then (if s =? 1 then dit8_invcore1_fn else dit8_invcore_fn) else (if s =? 1 then dit8_fwdcore1_fn else dit8_fwdcore_fn))
  | DIT16 => if o then (if inv then (if s =? 1 then dit16o_invcore1_fn else dit16o_invcore_fn) else (if s =? 1 then dit16o_fwdcore1_fn else dit16o_fwdcore_fn)) else (if inv then (if s =? 1 then dit16_invcore1_fn else dit16_invcore_fn) else (if s =? 1 then dit16_fwdcore1_fn else dit16_fwdcore_fn))
  end.
(** [n] is the length 2, 4, 8 or 16 of the last butterfly; kernels shorter than the radix come from the smaller radices *)
Definition ef_dif (o inv : bool) (mode : smode) (n s : nat) : list C -> list C :=
  match n with
  | 16 => if o then (if inv then (if s =? 1 then dif16o_invend16_1_fn mode else dif16o_invend16_fn (16 * s) mode) else (if s =? 1 then dif16o_fwdend16_1_fn mode else dif16o_fwdend16_fn (16 * s) mode)) else (if inv then (if s =? 1 then dif16_invend16_1_fn mode else dif16_invend16_fn (16 * s) mode) else (if s =? 1 then dif16_fwdend16_1_fn mode else dif16_fwdend16_fn (16 * s) mode))
  | 8 => if o then (if inv then (if s =? 1 then dif8o_invend8_1_fn mode else dif8o_invend8_fn (8 * s) mode) else (if s =? 1 then dif8o_fwdend8_1_fn mode else dif8o_fwdend8_fn (8 * s) mode)) else (if inv then (if s =? 1 then dif8_invend8_1_fn mode else dif8_invend8_fn (8 * s) mode) else (if s =? 1 then dif8_fwdend8_1_fn mode else dif8_fwdend8_fn (8 * s) mode))
  | 4 => if o then (if inv then (if s =? 1 then dif4o_invend4_1_fn mode else dif4o_invend4_fn (4 * s) mode) else (if s =? 1 then dif4o_fwdend4_1_fn mode else dif4o_fwdend4_fn (4 * s) mode)) else (if inv then (if s =? 1 then dif4_invend4_1_fn mode else dif4_invend4_fn (4 * s) mode) else (if s =? 1 then dif4_fwdend4_1_fn mode else dif4_fwdend4_fn (4 * s) mode))
  | 2 => if o then (if inv then (if s =? 1 then dif4o_invend2_1_fn mode else dif4o_invend2_fn (2 * s) mode) else (if s =? 1 then dif4o_fwdend2_1_fn mode else dif4o_fwdend2_fn (2 * s) mode)) else (if inv then (if s =? 1 then dif4_invend2_1_fn mode else dif4_invend2_fn (2 * s) mode) else (if s =? 1 then dif4_fwdend2_1_fn mode else dif4_fwdend2_fn (2 * s) mode))
  | _ => fun v => v
  end.
Definition ef_dit (o inv : bool) (mode : smode) (n s : nat) : list C -> list C :=
  match n with
  | 16 => if o then (if inv then (if s =? 1 then dit16o_invend16_1_fn mode else dit16o_invend16_fn (16 * s) mode) else (if s =? 1 then dit16o_fwdend16_1_fn mode else dit16o_fwdend16_fn (16 * s) mode)) else (if inv then (if s =? 1 then dit16_invend16_1_fn mode else dit16_invend16_fn (16 * s) mode) else (if s =? 1 then dit16_fwdend16_1_fn mode else dit16_fwdend16_fn (16 * s) mode))
  | 8 => if o then (if inv then (if s =? 1 then dit8o_invend8_1_fn mode else dit8o_invend8_fn (8 * s) mode) else (if s =? 1 then dit8o_fwdend8_1_fn mode else dit8o_fwdend8_fn (8 * s) mode)) else (if inv then (if s =? 1 then dit8_invend8_1_fn mode else dit8_invend8_fn (8 * s) mode) else (if s =? 1 then dit8_fwdend8_1_fn mode else dit8_fwdend8_fn (8 * s) mode))
  | 4 => if o then (if inv then (if s =? 1 then dit4o_invend4_1_fn mode else dit4o_invend4_fn (4 * s) mode) else (if s =? 1 then dit4o_fwdend4_1_fn mode else dit4o_fwdend4_fn (4 * s) mode)) else (if inv then (if s =? 1 then dit4_invend4_1_fn mode else dit4_invend4_fn (4 * s) mode) else (if s =? 1 then dit4_fwdend4_1_fn mode else dit4_fwdend4_fn (4 * s) mode))
  | 2 => if o then (if inv then (if s =? 1 then dit4o_invend2_1_fn mode else dit4o_invend2_fn (2 * s) mode) else (if s =? 1 then dit4o_fwdend2_1_fn mode else dit4o_fwdend2_fn (2 * s) mode)) else (if inv then (if s =? 1 then dit4_invend2_1_fn mode else dit4_invend2_fn (2 * s) mode) else (if s =? 1 then dit4_fwdend2_1_fn mode else dit4_fwdend2_fn (2 * s) mode))
  | _ => fun v => v
  end.
Definition ef (o : bool) (a : alg) := if is_dit a then ef_dit o else ef_dif o.

Definition cF (o : bool) (a : alg) (inv : bool) (m s : nat) : (nat -> C) -> (nat -> C) -> nat -> C :=
  if is_dit a then dit_fun (radix a) m s (ktw o a m s) (kf o a inv s)
  else dif_fun (radix a) m s (ktw o a m s) (kf o a inv s).
Definition eF (o : bool) (a : alg) (inv : bool) (mode : smode) (n s : nat) : (nat -> C) -> (nat -> C) -> nat -> C :=
  dif_fun n 1 s (fun _ => []) (ef o a inv mode n s).

(** ** addresses *)
Lemma ptr_eq (p : ptr) a b : a = b -> p +! a = p +! b.
Proof. intros ->. reflexivity. Qed.
Lemma ptr_add p a b : (p +! a) +! b = p +! (a + b).
Proof. unfold padd; cbn. f_equal. lia. Qed.
Lemma ptr_0 (p : ptr) a : 0 = a -> p = p +! a.
Proof. intros <-. unfold padd. destruct p. cbn. f_equal. lia. Qed.
Lemma mk_lane r1 r2 w1 w2 f : r1 = r2 -> w1 = w2 -> Lane (V:=C) r1 w1 f = Lane r2 w2 f.
Proof. intros -> ->; reflexivity. Qed.
Lemma quot (r m s : nat) : 0 < r -> r * m * s / r = m * s.
Proof. intros. rewrite <- Nat.mul_assoc, Nat.mul_comm. apply Nat.div_mul. lia. Qed.
Lemma quot1 (r m : nat) : 0 < r -> r * m / r = m.
Proof. intros. rewrite Nat.mul_comm. apply Nat.div_mul. lia. Qed.

Ltac hd t := match t with ?f _ => hd f | _ => t end.
Ltac addrs := cbn [map seq app Nat.sub]; repeat (apply (f_equal2 cons); [unfold twid, twidT; rewrite ?ptr_add, ?quot1 by lia; apply ptr_eq; lia|]); reflexivity.
Ltac laneq :=
  match goal with |- ?l = ?R =>
   let h := hd l in unfold h, lane_core, lane_dit, Xout; rewrite ?quot, ?quot1 by lia; cbv zeta; apply mk_lane; addrs end.

Lemma single_for p : for_ 1 (fun _ : nat => p) = (p : prog unit).
Proof. reflexivity. Qed.
Lemma flat_n (r m h : nat) : 0 < r -> (r * m * (4 * h)) / r / 4 = m * h.
Proof. intros. rewrite quot by auto. replace (m * (4 * h)) with (m * h * 4) by lia. apply Nat.div_mul. lia. Qed.
Lemma flat_h h : 4 * h / 4 = h.
Proof. rewrite Nat.mul_comm. apply Nat.div_mul. lia. Qed.

Ltac dlen vs H := repeat (destruct vs as [|? vs]; [try discriminate H; try reflexivity|]); try discriminate H; try reflexivity.

Lemma kf_len o a inv m s p vs : length vs = length (ktw o a m s p) + radix a -> length (kf o a inv s vs) = radix a.
Proof.
  unfold ktw, tw_s, tw_o, kf. destruct a, o, (s =? 1), inv; cbn [length map seq radix Nat.sub Nat.add]; intros H; 
  do 33 (destruct vs as [|? vs]; try discriminate H; try reflexivity).
Qed.
Definition ends n := n = 2 \/ n = 4 \/ n = 8 \/ n = 16.
Lemma ef_len o a inv mode n s vs : ends n -> length vs = n -> length (ef o a inv mode n s vs) = n.
Proof.
  intros [->|[->|[->| ->]]]; unfold ef, ef_dit, ef_dif; destruct (is_dit a), o, inv, (s =? 1); intros H; 
  do 17 (destruct vs as [|? vs]; try discriminate H; try reflexivity).
Qed.


(** ** decimation in frequency: core passes *)
Ltac red_core := cbv beta iota delta [core coreo
  dif4_core dif8_core dif16_core dit4_core dit8_core dit16_core dif4o_core dif8o_core dif16o_core dit4o_core dit8o_core dit16o_core].
(* the loop of the kernel *)
Ltac is_loop := match goal with
  | |- Computes ?p _ _ _ _ _ _ _ _ => let h := hd p in unfold h
  | |- RComputes ?p _ _ _ _ _ _ _ _ => let h := hd p in unfold h end;
  cbv zeta; unfold for_step, par_step, single; rewrite ?quot1, ?flat_n, ?flat_h by lia.

Section Core.
Variables (o : bool) (a : alg) (inv : bool) (m h s N : nat) (x y W : ptr) (NW : nat -> Prop).
Hypothesis HN : N = radix a * m * s.
Hypothesis Hm : m = 2 * h.
Hypothesis Hh : 0 < h.
Hypothesis Hs : four_or_1 s.
Hypothesis Htab : forall p e, p < m -> In e (ktw o a m s p) -> NW e.
Hypothesis Hok : okT N W NW x y.

Let Hs0 : 0 < s. Proof. destruct Hs as [->|(h' & -> & H)]; lia. Qed.
Let Hr0 : 0 < radix a. Proof. destruct a; cbn; lia. Qed.

Lemma dif_pass t n body : is_dit a = false -> 
  (forall p q, p < m -> q < s -> t p q = lane_core (radix a) (m * s) s x y W (ktw o a m s p) (kf o a inv s) (s * p) q) ->
  Shape m s t n body ->
  Computes (for_ n body) x N W NW (inR y N) y N (cF o a inv m s) /\
  RComputes [(n, body)] x N W NW (inR y N) y N (cF o a inv m s).
Proof.
  intros Hd Ht Hsh. unfold cF. rewrite Hd. destruct Hok as (H1 & H2 & H3).
  split; [eapply difk_C|eapply difk_R]; eauto; intros; eapply kf_len; eauto.
Qed.
Lemma dit_pass t n body : is_dit a = true -> 
  (forall p q, p < m -> q < s -> t p q = lane_dit (radix a) (m * s) s y x W (ktw o a m s p) (kf o a inv s) (s * p) q) ->
  Shape m s t n body ->
  Computes (for_ n body) y N W NW (inR x N) x N (cF o a inv m s) /\
  RComputes [(n, body)] y N W NW (inR x N) x N (cF o a inv m s).
Proof.
  intros Hd Ht Hsh. unfold cF. rewrite Hd. destruct Hok as (H1 & H2 & H3). apply disjR_sym in H1.
  split; [eapply ditk_C|eapply ditk_R]; eauto; try lia; intros; eapply kf_len; eauto.
Qed.
End Core.

Lemma tw_s_1 r m p : tw_s r m 1 p = map (fun k => p + (k - 1) * m) (seq 1 (r - 1)).
Proof. reflexivity. Qed.
Lemma tw_s_4 r m h p : tw_s r m (4 * h) p = map (fun k => r * (4 * h * p) + (r * m * (4 * h) + k)) (seq 1 (r - 1)).
Proof. unfold tw_s. replace (4 * h =? 1) with false; auto. symmetry. apply Nat.eqb_neq. lia. Qed.
Lemma kf_s_4 o a inv h : kf o a inv (4 * h) = kf o a inv 0.
Proof. unfold kf. replace (4 * h =? 1) with false; auto. symmetry. apply Nat.eqb_neq. lia. Qed.

Ltac core_lane h' :=
  let p := fresh "p" in let q := fresh "q" in
  intros p q ? ?; cbv beta; unfold ktw, tw_o; rewrite ?tw_s_1, ?tw_s_4, ?(kf_s_4 _ _ _ h'); cbn [radix]; 
  try (assert (q = 0) as -> by lia); laneq.

Ltac shp := match goal with |- Shape ?m ?s ?t _ _ => first
  [ refine (sh_col m s t 2 _ _ _ _); [reflexivity|eassumption|lia]
  | refine (sh_nest m s t 4 _ _ _); [reflexivity|lia]
  | refine (sh_nest m s t 2 _ _ _); [instantiate (1 := s / 2); match s with 4 * ?h' => replace (4 * h') with (2 * h' * 2) by lia; rewrite Nat.div_mul; lia end|lia]
  | refine (sh_flat m s t 4 _ _ _); [reflexivity|lia]
  | refine (sh_end m s t 2 _ _ _ _); [reflexivity|eassumption|lia]
  | refine (sh_one m s t _ _); reflexivity ] end.

Lemma dif_core_C a inv m h s N x y W (NW : nat -> Prop) : is_dit a = false -> N = radix a * m * s -> m = 2 * h -> 0 < h -> four_or_1 s ->
  (forall p e, p < m -> In e (ktw false a m s p) -> NW e) -> okT N W NW x y ->
  Computes (core a inv W (radix a * m) s x y) x N W NW (inR y N) y N (cF false a inv m s).
Proof.
  intros Hd HN Hm Hh Hs Htab Hok.
  assert (E4 : forall h', (4 * h' =? 1) = false) by (intros; apply Nat.eqb_neq; lia).
  assert (E2 : (m + 2 - 1) / 2 = h) by (rewrite Hm; apply div_up; lia).
  destruct Hs as [->|(h' & -> & Hh')].
  - destruct a; try discriminate Hd; red_core; cbn [radix Nat.eqb]; destruct inv; is_loop; rewrite E2;
    (match goal with |- context [vblock 2 (fun l => ?K ?n ?x ?y ?W _)] =>
      eapply proj1; eapply (dif_pass false _ _ m h 1 N x y W NW HN Hm Hh (or_introl eq_refl) Htab Hok (fun p q => K n x y W p)) end;
     [reflexivity|core_lane 0|shp]).
  - destruct a; try discriminate Hd; red_core; rewrite E4; cbn [radix]; destruct inv; is_loop;
    (match goal with |- context [vblock ?L (fun l => ?K ?n ?s ?x ?y ?W _ _)] =>
      eapply proj1; eapply (dif_pass false _ _ m h (4 * h') N x y W NW HN Hm Hh (or_intror (ex_intro _ h' (conj eq_refl Hh'))) Htab Hok (fun p q => K n s x y W p q)) end;
     [reflexivity|core_lane h'|shp]).
Qed.

Lemma dif_core_R a inv m h s N x y W (NW : nat -> Prop) : is_dit a = false -> N = radix a * m * s -> m = 2 * h -> 0 < h -> four_or_1 s ->
  (forall p e, p < m -> In e (ktw true a m s p) -> NW e) -> okT N W NW x y ->
  RComputes (coreo a inv W (radix a * m) s x y) x N W NW (inR y N) y N (cF true a inv m s).
Proof.
  intros Hd HN Hm Hh Hs Htab Hok.
  assert (E4 : forall h', (4 * h' =? 1) = false) by (intros; apply Nat.eqb_neq; lia).
  assert (E2 : (m + 2 - 1) / 2 = h) by (rewrite Hm; apply div_up; lia).
  destruct Hs as [->|(h' & -> & Hh')].
  - destruct a; try discriminate Hd; red_core; cbn [radix Nat.eqb]; destruct inv; is_loop; rewrite E2;
    (match goal with |- context [vblock 2 (fun l => ?K ?n ?x ?y ?W _)] =>
      eapply proj2; eapply (dif_pass true _ _ m h 1 N x y W NW HN Hm Hh (or_introl eq_refl) Htab Hok (fun p q => K n x y W p)) end;
     [reflexivity|core_lane 0|shp]).
  - destruct a; try discriminate Hd; red_core; rewrite E4; cbn [radix]; destruct inv; is_loop;
    (match goal with |- context [vblock ?L (fun l => ?K ?n ?s ?x ?y ?W _ _)] =>
      eapply proj2; eapply (dif_pass true _ _ m h (4 * h') N x y W NW HN Hm Hh (or_intror (ex_intro _ h' (conj eq_refl Hh'))) Htab Hok (fun p q => K n s x y W p q)) end;
     [reflexivity|core_lane h'|shp]).
Qed.

Lemma dit_core_C a inv m h s N x y W (NW : nat -> Prop) : is_dit a = true -> N = radix a * m * s -> m = 2 * h -> 0 < h -> four_or_1 s ->
  (forall p e, p < m -> In e (ktw false a m s p) -> NW e) -> okT N W NW x y ->
  Computes (core a inv W (radix a * m) s x y) y N W NW (inR x N) x N (cF false a inv m s).
Proof.
  intros Hd HN Hm Hh Hs Htab Hok.
  assert (E4 : forall h', (4 * h' =? 1) = false) by (intros; apply Nat.eqb_neq; lia).
  assert (E2 : (m + 2 - 1) / 2 = h) by (rewrite Hm; apply div_up; lia).
  destruct Hs as [->|(h' & -> & Hh')].
  - destruct a; try discriminate Hd; red_core; cbn [radix Nat.eqb]; destruct inv; is_loop; rewrite E2;
    (match goal with |- context [vblock 2 (fun l => ?K ?n ?x ?y ?W _)] =>
      eapply proj1; eapply (dit_pass false _ _ m h 1 N x y W NW HN Hm Hh (or_introl eq_refl) Htab Hok (fun p q => K n x y W p)) end;
     [reflexivity|core_lane 0|shp]).
  - destruct a; try discriminate Hd; red_core; rewrite E4; cbn [radix]; destruct inv; is_loop;
    (match goal with |- context [vblock ?L (fun l => ?K ?n ?s ?x ?y ?W _ _)] =>
      eapply proj1; eapply (dit_pass false _ _ m h (4 * h') N x y W NW HN Hm Hh (or_intror (ex_intro _ h' (conj eq_refl Hh'))) Htab Hok (fun p q => K n s x y W p q)) end;
     [reflexivity|core_lane h'|shp]).
Qed.

Lemma dit_core_R a inv m h s N x y W (NW : nat -> Prop) : is_dit a = true -> N = radix a * m * s -> m = 2 * h -> 0 < h -> four_or_1 s ->
  (forall p e, p < m -> In e (ktw true a m s p) -> NW e) -> okT N W NW x y ->
  RComputes (coreo a inv W (radix a * m) s x y) y N W NW (inR x N) x N (cF true a inv m s).
Proof.
  intros Hd HN Hm Hh Hs Htab Hok.
  assert (E4 : forall h', (4 * h' =? 1) = false) by (intros; apply Nat.eqb_neq; lia).
  assert (E2 : (m + 2 - 1) / 2 = h) by (rewrite Hm; apply div_up; lia).
  destruct Hs as [->|(h' & -> & Hh')].
  - destruct a; try discriminate Hd; red_core; cbn [radix Nat.eqb]; destruct inv; is_loop; rewrite E2;
    (match goal with |- context [vblock 2 (fun l => ?K ?n ?x ?y ?W _)] =>
      eapply proj2; eapply (dit_pass true _ _ m h 1 N x y W NW HN Hm Hh (or_introl eq_refl) Htab Hok (fun p q => K n x y W p)) end;
     [reflexivity|core_lane 0|shp]).
  - destruct a; try discriminate Hd; red_core; rewrite E4; cbn [radix]; destruct inv; is_loop;
    (match goal with |- context [vblock ?L (fun l => ?K ?n ?s ?x ?y ?W _ _)] =>
      eapply proj2; eapply (dit_pass true _ _ m h (4 * h') N x y W NW HN Hm Hh (or_intror (ex_intro _ h' (conj eq_refl Hh'))) Htab Hok (fun p q => K n s x y W p q)) end;
     [reflexivity|core_lane h'|shp]).
Qed.

(** ** final butterflies *)
Ltac red_end := cbv beta iota delta [fin fino Nat.eqb
  dif4_end dif8_end dif16_end dit4_end dit8_end dit16_end dif4o_end dif8o_end dif16o_end dit4o_end dit8o_end dit16o_end].

Section EndPass.
Variables (o : bool) (a : alg) (inv : bool) (mode : smode) (n s N : nat) (x z W : ptr) (NW : nat -> Prop).
Hypothesis HN : N = n * s.
Hypothesis Hn : ends n.
Hypothesis Hs : 0 < s.
Hypothesis Hxz : disjR x N z N \/ z = x.
Hypothesis HW : disjT W NW z N.
Lemma end_pass t c body :
  (forall p q, p < 1 -> q < s -> t p q = lane_core n (1 * s) s x z W [] (ef o a inv mode n s) (s * p) q) ->
  Shape 1 s t c body ->
  Computes (for_ c body) x N W NW (inR z N) z N (eF o a inv mode n s) /\
  RComputes [(c, body)] x N W NW (inR z N) z N (eF o a inv mode n s).
Proof.
  intros Ht Hsh. unfold eF.
  assert (Hn0 : 0 < n) by (destruct Hn as [->|[->|[->| ->]]]; lia).
  split; [eapply difk_C|eapply difk_R]; eauto; try lia;
    try (intros p e _ Hin; cbn in Hin; contradiction); try (intros p vs _ Hl; cbn in Hl; apply ef_len; auto); destruct Hxz; auto.
Qed.
End EndPass.

Lemma ef_4 o a inv mode n h : ends n -> ef o a inv mode n (4 * h) =
  if is_dit a then
    match n with
    | 16 => if o then (if inv then dit16o_invend16_fn (16 * (4 * h)) mode else dit16o_fwdend16_fn (16 * (4 * h)) mode)
            else (if inv then dit16_invend16_fn (16 * (4 * h)) mode else dit16_fwdend16_fn (16 * (4 * h)) mode)
    | 8 => if o then (if inv then dit8o_invend8_fn (8 * (4 * h)) mode else dit8o_fwdend8_fn (8 * (4 * h)) mode)
            else (if inv then dit8_invend8_fn (8 * (4 * h)) mode else dit8_fwdend8_fn (8 * (4 * h)) mode)
    | 4 => if o then (if inv then dit4o_invend4_fn (4 * (4 * h)) mode else dit4o_fwdend4_fn (4 * (4 * h)) mode)
            else (if inv then dit4_invend4_fn (4 * (4 * h)) mode else dit4_fwdend4_fn (4 * (4 * h)) mode)
    | _ => if o then (if inv then dit4o_invend2_fn (2 * (4 * h)) mode else dit4o_fwdend2_fn (2 * (4 * h)) mode)
            else (if inv then dit4_invend2_fn (2 * (4 * h)) mode else dit4_fwdend2_fn (2 * (4 * h)) mode)
    end
  else
    match n with
    | 16 => if o then (if inv then dif16o_invend16_fn (16 * (4 * h)) mode else dif16o_fwdend16_fn (16 * (4 * h)) mode)
            else (if inv then dif16_invend16_fn (16 * (4 * h)) mode else dif16_fwdend16_fn (16 * (4 * h)) mode)
    | 8 => if o then (if inv then dif8o_invend8_fn (8 * (4 * h)) mode else dif8o_fwdend8_fn (8 * (4 * h)) mode)
            else (if inv then dif8_invend8_fn (8 * (4 * h)) mode else dif8_fwdend8_fn (8 * (4 * h)) mode)
    | 4 => if o then (if inv then dif4o_invend4_fn (4 * (4 * h)) mode else dif4o_fwdend4_fn (4 * (4 * h)) mode)
            else (if inv then dif4_invend4_fn (4 * (4 * h)) mode else dif4_fwdend4_fn (4 * (4 * h)) mode)
    | _ => if o then (if inv then dif4o_invend2_fn (2 * (4 * h)) mode else dif4o_fwdend2_fn (2 * (4 * h)) mode)
            else (if inv then dif4_invend2_fn (2 * (4 * h)) mode else dif4_fwdend2_fn (2 * (4 * h)) mode)
    end.
Proof.
  intros Hn. assert (E4 : (4 * h =? 1) = false) by (apply Nat.eqb_neq; lia).
  unfold ef. destruct (is_dit a); unfold ef_dit, ef_dif; destruct Hn as [->|[->|[->| ->]]]; rewrite E4; reflexivity.
Qed.

Ltac end_lane :=
  let p := fresh "p" in let q := fresh "q" in
  intros p q ? ?; cbv beta; assert (p = 0) as -> by lia; rewrite ?ef_4 by (unfold ends; auto); cbn [is_dit];
  try (assert (q = 0) as -> by lia); laneq.

Lemma dif_end_C a inv mode n s eo N x y W (NW : nat -> Prop) : is_dit a = false -> N = n * s -> ends n -> n <= radix a -> four_or_1 s ->
  okT N W NW x y ->
  Computes (fin a inv mode n s eo x y) x N W NW (inR (Xout eo x y) N) (Xout eo x y) N (eF false a inv mode n s).
Proof.
  intros Hd HN Hn Hle Hs Hok.
  assert (E4 : forall h', (4 * h' =? 1) = false) by (intros; apply Nat.eqb_neq; lia).
  assert (Hxz : disjR x N (Xout eo x y) N \/ (Xout eo x y) = x).
  { destruct Hok as (H1 & H2 & H3). destruct eo; cbn [Xout]; auto. }
  assert (HW : disjT W NW (Xout eo x y) N) by (destruct Hok as (H1 & H2 & H3); destruct eo; cbn [Xout]; auto).
  destruct Hs as [->|(h' & -> & Hh')].
  - assert (Hs0 : 0 < 1) by lia.
    destruct a; try discriminate Hd; destruct Hn as [->|[->|[->| ->]]]; cbn [radix] in Hle; try (exfalso; clear - Hle; lia); clear Hle;
    red_end; destruct inv; is_loop; try rewrite <- (single_for (lblock _));
    (match goal with |- context [lblock (?K ?mode ?eo ?x ?y)] =>
      eapply proj1; eapply (end_pass false _ _ mode _ 1 N _ _ W NW HN ltac:(unfold ends; auto) Hs0 Hxz HW (fun p q => K mode eo x y)) end;
     [end_lane|shp]).
  - assert (Hs0 : 0 < 4 * h') by lia.
    assert (E2 : (4 * h' + 2 - 1) / 2 = 2 * h') by (replace (4 * h') with (2 * (2 * h')) by lia; apply div_up; lia).
    assert (E22 : 4 * h' = 2 * (2 * h')) by lia.
    destruct a; try discriminate Hd; destruct Hn as [->|[->|[->| ->]]]; cbn [radix] in Hle; try (exfalso; clear - Hle; lia); clear Hle;
    cbv beta iota delta [fin fino dif4_end dif8_end dif16_end dit4_end dit8_end dit16_end dif4o_end dif8o_end dif16o_end dit4o_end dit8o_end dit16o_end];
    rewrite E4; cbn [Nat.eqb]; destruct inv; is_loop; rewrite E2;
    (match goal with |- context [vblock 2 (fun l => ?K ?mode ?s ?eo ?x ?y _)] =>
      eapply proj1; eapply (end_pass false _ _ mode _ s N _ _ W NW HN ltac:(unfold ends; auto) Hs0 Hxz HW (fun p q => K mode s eo x y q)) end;
     [end_lane|shp]).
Qed.

Lemma dif_end_R a inv mode n s eo N x y W (NW : nat -> Prop) : is_dit a = false -> N = n * s -> ends n -> n <= radix a -> four_or_1 s ->
  okT N W NW x y ->
  RComputes (fino a inv mode n s eo x y) x N W NW (inR (Xout eo x y) N) (Xout eo x y) N (eF true a inv mode n s).
Proof.
  intros Hd HN Hn Hle Hs Hok.
  assert (E4 : forall h', (4 * h' =? 1) = false) by (intros; apply Nat.eqb_neq; lia).
  assert (Hxz : disjR x N (Xout eo x y) N \/ (Xout eo x y) = x).
  { destruct Hok as (H1 & H2 & H3). destruct eo; cbn [Xout]; auto. }
  assert (HW : disjT W NW (Xout eo x y) N) by (destruct Hok as (H1 & H2 & H3); destruct eo; cbn [Xout]; auto).
  destruct Hs as [->|(h' & -> & Hh')].
  - assert (Hs0 : 0 < 1) by lia.
    destruct a; try discriminate Hd; destruct Hn as [->|[->|[->| ->]]]; cbn [radix] in Hle; try (exfalso; clear - Hle; lia); clear Hle;
    red_end; destruct inv; is_loop; try rewrite <- (single_for (lblock _));
    (match goal with |- context [lblock (?K ?mode ?eo ?x ?y)] =>
      eapply proj2; eapply (end_pass true _ _ mode _ 1 N _ _ W NW HN ltac:(unfold ends; auto) Hs0 Hxz HW (fun p q => K mode eo x y)) end;
     [end_lane|shp]).
  - assert (Hs0 : 0 < 4 * h') by lia.
    assert (E2 : (4 * h' + 2 - 1) / 2 = 2 * h') by (replace (4 * h') with (2 * (2 * h')) by lia; apply div_up; lia).
    assert (E22 : 4 * h' = 2 * (2 * h')) by lia.
    destruct a; try discriminate Hd; destruct Hn as [->|[->|[->| ->]]]; cbn [radix] in Hle; try (exfalso; clear - Hle; lia); clear Hle;
    cbv beta iota delta [fin fino dif4_end dif8_end dif16_end dit4_end dit8_end dit16_end dif4o_end dif8o_end dif16o_end dit4o_end dit8o_end dit16o_end];
    rewrite E4; cbn [Nat.eqb]; destruct inv; is_loop; rewrite E2;
    (match goal with |- context [vblock 2 (fun l => ?K ?mode ?s ?eo ?x ?y _)] =>
      eapply proj2; eapply (end_pass true _ _ mode _ s N _ _ W NW HN ltac:(unfold ends; auto) Hs0 Hxz HW (fun p q => K mode s eo x y q)) end;
     [end_lane|shp]).
Qed.

Lemma dit_end_C a inv mode n s eo N x y W (NW : nat -> Prop) : is_dit a = true -> N = n * s -> ends n -> n <= radix a -> four_or_1 s ->
  okT N W NW x y ->
  Computes (fin a inv mode n s eo x y) (Xout eo x y) N W NW (inR x N) x N (eF false a inv mode n s).
Proof.
  intros Hd HN Hn Hle Hs Hok.
  assert (E4 : forall h', (4 * h' =? 1) = false) by (intros; apply Nat.eqb_neq; lia).
  assert (Hxz : disjR (Xout eo x y) N x N \/ x = (Xout eo x y)).
  { destruct Hok as (H1 & H2 & H3). destruct eo; cbn [Xout]; auto using disjR_sym. }
  assert (HW : disjT W NW x N) by (destruct Hok as (H1 & H2 & H3); destruct eo; cbn [Xout]; auto).
  destruct Hs as [->|(h' & -> & Hh')].
  - assert (Hs0 : 0 < 1) by lia.
    destruct a; try discriminate Hd; destruct Hn as [->|[->|[->| ->]]]; cbn [radix] in Hle; try (exfalso; clear - Hle; lia); clear Hle;
    red_end; destruct inv; is_loop; try rewrite <- (single_for (lblock _));
    (match goal with |- context [lblock (?K ?mode ?eo ?x ?y)] =>
      eapply proj1; eapply (end_pass false _ _ mode _ 1 N _ _ W NW HN ltac:(unfold ends; auto) Hs0 Hxz HW (fun p q => K mode eo x y)) end;
     [end_lane|shp]).
  - assert (Hs0 : 0 < 4 * h') by lia.
    assert (E2 : (4 * h' + 2 - 1) / 2 = 2 * h') by (replace (4 * h') with (2 * (2 * h')) by lia; apply div_up; lia).
    assert (E22 : 4 * h' = 2 * (2 * h')) by lia.
    destruct a; try discriminate Hd; destruct Hn as [->|[->|[->| ->]]]; cbn [radix] in Hle; try (exfalso; clear - Hle; lia); clear Hle;
    cbv beta iota delta [fin fino dif4_end dif8_end dif16_end dit4_end dit8_end dit16_end dif4o_end dif8o_end dif16o_end dit4o_end dit8o_end dit16o_end];
    rewrite E4; cbn [Nat.eqb]; destruct inv; is_loop; rewrite E2;
    (match goal with |- context [vblock 2 (fun l => ?K ?mode ?s ?eo ?x ?y _)] =>
      eapply proj1; eapply (end_pass false _ _ mode _ s N _ _ W NW HN ltac:(unfold ends; auto) Hs0 Hxz HW (fun p q => K mode s eo x y q)) end;
     [end_lane|shp]).
Qed.

Lemma dit_end_R a inv mode n s eo N x y W (NW : nat -> Prop) : is_dit a = true -> N = n * s -> ends n -> n <= radix a -> four_or_1 s ->
  okT N W NW x y ->
  RComputes (fino a inv mode n s eo x y) (Xout eo x y) N W NW (inR x N) x N (eF true a inv mode n s).
Proof.
  intros Hd HN Hn Hle Hs Hok.
  assert (E4 : forall h', (4 * h' =? 1) = false) by (intros; apply Nat.eqb_neq; lia).
  assert (Hxz : disjR (Xout eo x y) N x N \/ x = (Xout eo x y)).
  { destruct Hok as (H1 & H2 & H3). destruct eo; cbn [Xout]; auto using disjR_sym. }
  assert (HW : disjT W NW x N) by (destruct Hok as (H1 & H2 & H3); destruct eo; cbn [Xout]; auto).
  destruct Hs as [->|(h' & -> & Hh')].
  - assert (Hs0 : 0 < 1) by lia.
    destruct a; try discriminate Hd; destruct Hn as [->|[->|[->| ->]]]; cbn [radix] in Hle; try (exfalso; clear - Hle; lia); clear Hle;
    red_end; destruct inv; is_loop; try rewrite <- (single_for (lblock _));
    (match goal with |- context [lblock (?K ?mode ?eo ?x ?y)] =>
      eapply proj2; eapply (end_pass true _ _ mode _ 1 N _ _ W NW HN ltac:(unfold ends; auto) Hs0 Hxz HW (fun p q => K mode eo x y)) end;
     [end_lane|shp]).
  - assert (Hs0 : 0 < 4 * h') by lia.
    assert (E2 : (4 * h' + 2 - 1) / 2 = 2 * h') by (replace (4 * h') with (2 * (2 * h')) by lia; apply div_up; lia).
    assert (E22 : 4 * h' = 2 * (2 * h')) by lia.
    destruct a; try discriminate Hd; destruct Hn as [->|[->|[->| ->]]]; cbn [radix] in Hle; try (exfalso; clear - Hle; lia); clear Hle;
    cbv beta iota delta [fin fino dif4_end dif8_end dif16_end dit4_end dit8_end dit16_end dif4o_end dif8o_end dif16o_end dit4o_end dit8o_end dit16o_end];
    rewrite E4; cbn [Nat.eqb]; destruct inv; is_loop; rewrite E2;
    (match goal with |- context [vblock 2 (fun l => ?K ?mode ?s ?eo ?x ?y _)] =>
      eapply proj2; eapply (end_pass true _ _ mode _ s N _ _ W NW HN ltac:(unfold ends; auto) Hs0 Hxz HW (fun p q => K mode s eo x y q)) end;
     [end_lane|shp]).
Qed.

End PowKern.
