(** * Error of composed radix passes, in the Euclidean norm *)

From Coq Require Import Reals List Arith Lia Lra Psatz.
From Verif Require Import Scalar RealOps Spec DftFacts CoreStage FftSpec Norm PowSpec PowExact.
Local Open Scope R_scope.

(** ** index decompositions *)
Lemma rsum_split_lo s n f : rsum (s * n) f = rsum n (fun a => rsum s (fun q => f (q + s * a)%nat)).
Proof. rewrite rsum_split_hi. apply rsum_swap. Qed.
Lemma rsum3 (r m s : nat) f : rsum (r * m * s) f = rsum m (fun p => rsum s (fun q => rsum r (fun j => f (q + s * (j + r * p))%nat))).
Proof.
  replace (r * m * s)%nat with (s * (r * m))%nat by lia. rewrite rsum_split_lo, rsum_split_lo.
  apply rsum_ext. intros p _. apply rsum_swap.
Qed.
Lemma rsum3' (r m s : nat) f : rsum (r * m * s) f = rsum m (fun p => rsum s (fun q => rsum r (fun i => f (q + s * (p + m * i))%nat))).
Proof.
  replace (r * m * s)%nat with (s * (m * r))%nat by lia. rewrite rsum_split_lo, rsum_split_hi.
  apply rsum_ext. intros p _. apply rsum_swap.
Qed.

(** ** exact passes: scaling of the norm and linearity *)
Lemma nrm_eq (N M : nat) c X Y : 0 <= c -> rsum N (fun i => cnorm2 (X i)) = c * rsum M (fun i => cnorm2 (Y i)) -> nrm N X = sqrt c * nrm M Y.
Proof. intros Hc E. unfold nrm. rewrite E. apply sqrt_mult; auto. apply rsum_pos. intros; apply cnorm2_pos. Qed.
Lemma fft_norm inv n s X Z : (0 < n)%nat -> fft_spec inv n s X Z -> nrm (n * s) Z = sqrt (INR n) * nrm (n * s) X.
Proof.
  intros Hn H. apply nrm_eq; [apply pos_INR|]. replace (n * s)%nat with (s * n)%nat by lia.
  rewrite !rsum_split_hi. rewrite <- rsum_mul. apply rsum_ext. intros q Hq.
  rewrite <- (Plancherel inv n (fun a => X (q + s * a)%nat)) by auto. apply rsum_ext. intros k Hk. rewrite H by auto. reflexivity.
Qed.
Lemma dif_norm inv r m s X Z : (0 < r)%nat -> dif_spec inv r m s X Z -> nrm (r * m * s) Z = sqrt (INR r) * nrm (r * m * s) X.
Proof.
  intros Hr H. apply nrm_eq; [apply pos_INR|]. rewrite rsum3, rsum3', <- rsum_mul. apply rsum_ext. intros p Hp.
  rewrite <- rsum_mul. apply rsum_ext. intros q Hq. rewrite <- (Plancherel inv r (fun i => X (q + s * (p + m * i))%nat)) by auto.
  apply rsum_ext. intros j Hj. rewrite H by auto. rewrite cnorm2_mul, cnorm2_W, Rmult_1_l. f_equal. unfold DFT.
  apply csum_ext. intros i Hi. do 2 f_equal. lia.
Qed.
Lemma dit_norm inv r m s X Z : (0 < r)%nat -> dit_spec inv r m s X Z -> nrm (r * m * s) Z = sqrt (INR r) * nrm (r * m * s) X.
Proof.
  intros Hr H. apply nrm_eq; [apply pos_INR|]. rewrite rsum3', rsum3, <- rsum_mul. apply rsum_ext. intros p Hp.
  rewrite <- rsum_mul. apply rsum_ext. intros q Hq.
  transitivity (INR r * rsum r (fun i => cnorm2 (cmul (X (q + s * (i + r * p))%nat) (W inv (r * m) (i * p))))).
  - rewrite <- (Plancherel inv r (fun i => cmul (X (q + s * (i + r * p))%nat) (W inv (r * m) (i * p)))) by auto.
    apply rsum_ext. intros j Hj. rewrite H by auto. f_equal. unfold DFT. apply csum_ext. intros i Hi. do 3 f_equal. lia.
  - f_equal. apply rsum_ext. intros i _. rewrite cnorm2_mul, cnorm2_W. ring.
Qed.
Lemma csum_sub n f g : csum n (fun i => csub (f i) (g i)) = csub (csum n f) (csum n g).
Proof. induction n as [|n IH]; cbn [csum]; [csimp; ring|]. rewrite IH. ring. Qed.
Lemma fft_sub inv n s X Z X2 Z2 : fft_spec inv n s X Z -> fft_spec inv n s X2 Z2 -> fft_spec inv n s (vsub X X2) (vsub Z Z2).
Proof.
  intros H H2 q k Hq Hk. unfold vsub at 1. rewrite H, H2 by auto. unfold DFT. rewrite <- csum_sub. apply csum_ext. intros i _. unfold vsub. ring.
Qed.
Lemma dif_sub inv r m s X Z X2 Z2 : dif_spec inv r m s X Z -> dif_spec inv r m s X2 Z2 -> dif_spec inv r m s (vsub X X2) (vsub Z Z2).
Proof.
  intros H H2 p q k Hp Hq Hk. unfold vsub at 1. rewrite H, H2 by auto.
  transitivity (cmul (W inv (r * m) (k * p)) (csum r (fun i => csub (cmul (X (q + s * p + m * s * i)%nat) (W inv r (i * k))) (cmul (X2 (q + s * p + m * s * i)%nat) (W inv r (i * k)))))).
  - rewrite csum_sub. ring.
  - f_equal. apply csum_ext. intros i _. unfold vsub. ring.
Qed.
Lemma dit_sub inv r m s X Z X2 Z2 : dit_spec inv r m s X Z -> dit_spec inv r m s X2 Z2 -> dit_spec inv r m s (vsub X X2) (vsub Z Z2).
Proof.
  intros H H2 p q k Hp Hq Hk. unfold vsub at 1. rewrite H, H2 by auto. rewrite <- csum_sub. apply csum_ext. intros i _. unfold vsub. ring.
Qed.
Definition fftS (inv : bool) (n s : nat) (X : nat -> CC) (i : nat) : CC := DFT inv n (fun a => X ((i mod s) + s * a)%nat) (i / s).
Lemma fftS_ok inv n s X : fft_spec inv n s X (fftS inv n s X).
Proof. intros q k Hq Hk. unfold fftS. rewrite div_lin, mod_lin by auto. reflexivity. Qed.
Definition difS (inv : bool) (r m s : nat) (X : nat -> CC) (i : nat) : CC :=
  let q := (i mod s)%nat in let j := ((i / s) mod r)%nat in let p := ((i / s) / r)%nat in
  cmul (W inv (r * m) (j * p)) (csum r (fun i => cmul (X (q + s * p + m * s * i)%nat) (W inv r (i * j)))).
Lemma difS_ok inv r m s X : dif_spec inv r m s X (difS inv r m s X).
Proof. intros p q j Hp Hq Hj. unfold difS. rewrite div_lin, mod_lin, div_lin, mod_lin by auto. reflexivity. Qed.
Definition ditS (inv : bool) (r m s : nat) (Y : nat -> CC) (i : nat) : CC :=
  let q := (i mod s)%nat in let p := ((i / s) mod m)%nat in let j := ((i / s) / m)%nat in
  csum r (fun i => cmul (cmul (Y (q + r * (s * p) + s * i)%nat) (W inv (r * m) (i * p))) (W inv r (i * j))).
Lemma ditS_ok inv r m s X : dit_spec inv r m s X (ditS inv r m s X).
Proof. intros p q j Hp Hq Hj. unfold ditS. rewrite div_lin, mod_lin, div_lin, mod_lin by auto. reflexivity. Qed.

Definition vscal (c : R) (X : nat -> CC) (i : nat) : CC := @cscal ROps c (X i).
Lemma nrm_vscal N c X : 0 <= c -> nrm N (vscal c X) = c * nrm N X.
Proof. intros Hc. unfold vscal. rewrite nrm_scal. rewrite Rabs_right; [auto|lra]. Qed.
Lemma vscal_vscal a b X i : vscal a (vscal b X) i = vscal (a * b) X i.
Proof. unfold vscal. csimp; ring. Qed.

(** ** errors of passes *)
Section Floor.
(** the floor of the data (2 phi, twice the smallest normal number): errors below it are absolute *)
Variable f : R.
Hypothesis f0 : 0 <= f.
Definition flo (N : nat) : R := f * sqrt (INR N).
Lemma flo_pos N : 0 <= flo N.
Proof. apply Rmult_le_pos; [auto|apply sqrt_pos]. Qed.
(** Z' is within sqrt(n)*(E-1)*(c*|X| + floor) of the (scaled by c) exact result *)
Definition fft_err (inv : bool) (n s : nat) (c E : R) (X Z' : nat -> CC) : Prop :=
  forall Z, fft_spec inv n s (vscal c X) Z -> nrm (n * s) (vsub Z' Z) <= sqrt (INR n) * (E - 1) * (c * nrm (n * s) X + flo (n * s)).
Definition dif_err (inv : bool) (r m s : nat) (c E : R) (X Z' : nat -> CC) : Prop :=
  forall Z, dif_spec inv r m s (vscal c X) Z -> nrm (r * m * s) (vsub Z' Z) <= sqrt (INR r) * (E - 1) * (c * nrm (r * m * s) X + flo (r * m * s)).
Definition dit_err (inv : bool) (r m s : nat) (c E : R) (X Z' : nat -> CC) : Prop :=
  forall Z, dit_spec inv r m s (vscal c X) Z -> nrm (r * m * s) (vsub Z' Z) <= sqrt (INR r) * (E - 1) * (c * nrm (r * m * s) X + flo (r * m * s)).

Lemma comp_num (a b c1 c2 E1 E2 x e y y' d P : R) : 1 <= a -> 0 <= b -> 0 <= c1 -> 0 <= c2 <= 1 -> 1 <= E1 -> 1 <= E2 -> 0 <= x -> 0 <= P ->
  e <= a * (E1 - 1) * (c1 * x + P) -> y = a * (c1 * x) -> y' <= y + e -> d <= b * (E2 - 1) * (c2 * y' + P) ->
  d + b * (c2 * e) <= a * b * (E1 * E2 - 1) * (c1 * c2 * x + P).
Proof.
  intros Ha Hb Hc1 [Hc2 Hc2'] HE1 HE2 Hx HP He Hy Hy' Hd.
  assert (G0 : c2 * e <= a * (E1 - 1) * (c1 * c2 * x + P)).
  { assert (c2 * e <= c2 * (a * (E1 - 1) * (c1 * x + P))) by (apply Rmult_le_compat_l; auto).
    assert (c2 * (a * (E1 - 1) * P) <= 1 * (a * (E1 - 1) * P)).
    { apply Rmult_le_compat_r; auto. apply Rmult_le_pos; [apply Rmult_le_pos; lra|auto]. } nra. }
  assert (G1 : c2 * y' + P <= a * E1 * (c1 * c2 * x + P)).
  { assert (c2 * y' <= c2 * (y + e)) by (apply Rmult_le_compat_l; auto). subst y. assert (P <= a * P) by nra. nra. }
  assert (G2 : d <= b * (E2 - 1) * (a * E1 * (c1 * c2 * x + P))).
  { eapply Rle_trans; [exact Hd|]. apply Rmult_le_compat_l; [apply Rmult_le_pos; lra|auto]. }
  assert (G3 : b * (c2 * e) <= b * (a * (E1 - 1) * (c1 * c2 * x + P))) by (apply Rmult_le_compat_l; auto). nra.
Qed.
Lemma sqrt_ge1 n : (0 < n)%nat -> 1 <= sqrt (INR n).
Proof. intros H. rewrite <- sqrt_1 at 1. apply sqrt_le_1_alt. change 1 with (INR 1). apply le_INR. lia. Qed.

Lemma dif_compose_err inv r m s c1 c2 E1 E2 X Y' Z' : (0 < r)%nat -> (0 < m)%nat -> (0 < s)%nat -> 0 <= c1 -> 0 <= c2 <= 1 -> 1 <= E1 -> 1 <= E2 ->
  dif_err inv r m s c1 E1 X Y' -> fft_err inv m (r * s) c2 E2 Y' Z' -> fft_err inv (r * m) s (c1 * c2) (E1 * E2) X Z'.
Proof.
  intros Hr Hm Hs Hc1 Hc2' HE1 HE2 H1 H2 Z HZ. assert (Hc2 : 0 <= c2) by apply Hc2'.
  set (Y := difS inv r m s (vscal c1 X)). pose proof (difS_ok inv r m s (vscal c1 X)) as HY. fold Y in HY.
  specialize (H1 Y HY).
  set (V := fftS inv m (r * s) (vscal c2 Y')). pose proof (fftS_ok inv m (r * s) (vscal c2 Y')) as HV. fold V in HV.
  specialize (H2 V HV).
  (* Z is the sub-transform of c2 Y *)
  assert (HYZ : fft_spec inv (r * m) s (vscal (c1 * c2) X) (fftS inv m (r * s) (vscal c2 Y))).
  { eapply dif_compose; [auto|auto|auto| |apply fftS_ok].
    intros p q j Hp Hq Hj. etransitivity; [apply (dif_spec_scal inv r m s c2 _ _ HY p q j Hp Hq Hj)|]. f_equal. apply csum_ext. intros i _. f_equal.
    unfold vscal. csimp; ring. }
  set (V2 := fftS inv m (r * s) (vscal c2 Y)) in *. pose proof (fftS_ok inv m (r * s) (vscal c2 Y)) as HV2. fold V2 in HV2.
  assert (EN : (m * (r * s) = r * m * s)%nat) by lia. rewrite EN in H2.
  assert (E0 : nrm (r * m * s) (vsub Z' Z) = nrm (r * m * s) (vsub Z' V2)).
  { apply nrm_ext. intros i Hi. unfold vsub. f_equal. destruct (eucl s i Hs) as (q & k & Hq & ->).
    rewrite HZ, HYZ by (auto; nia). reflexivity. }
  rewrite E0. eapply Rle_trans; [apply (nrm_tri3 _ _ V)|].
  pose proof (fft_norm _ _ _ _ _ Hm (fft_sub _ _ _ _ _ _ _ HV HV2)) as HN. rewrite EN in HN. rewrite HN.
  assert (E3 : nrm (r * m * s) (vsub (vscal c2 Y') (vscal c2 Y)) = c2 * nrm (r * m * s) (vsub Y' Y)).
  { rewrite <- nrm_vscal by auto. apply nrm_ext. intros i _. unfold vsub, vscal. csimp; ring. }
  rewrite E3.
  pose proof (dif_norm _ _ _ _ _ _ Hr HY) as HNY. rewrite nrm_vscal in HNY by auto.
  pose proof (nrm_near (r * m * s) Y' Y) as HNe.
  rewrite mult_INR, sqrt_mult by apply pos_INR. pose proof (sqrt_pos (INR r)) as S1. pose proof (sqrt_pos (INR m)) as S2.
  pose proof (nrm_pos (r * m * s) X). 
  eapply comp_num; [apply sqrt_ge1; exact Hr|exact S2|exact Hc1|exact Hc2'|exact HE1|exact HE2|assumption|apply flo_pos|exact H1|exact HNY|exact HNe|exact H2].
Qed.
Lemma dit_compose_err inv r m s c1 c2 E1 E2 X Y' Z' : (0 < r)%nat -> (0 < m)%nat -> (0 < s)%nat -> 0 <= c1 -> 0 <= c2 <= 1 -> 1 <= E1 -> 1 <= E2 ->
  fft_err inv m (r * s) c1 E1 X Y' -> dit_err inv r m s c2 E2 Y' Z' -> fft_err inv (r * m) s (c1 * c2) (E1 * E2) X Z'.
Proof.
  intros Hr Hm Hs Hc1 Hc2' HE1 HE2 H1 H2 Z HZ. assert (Hc2 : 0 <= c2) by apply Hc2'.
  set (Y := fftS inv m (r * s) (vscal c1 X)). pose proof (fftS_ok inv m (r * s) (vscal c1 X)) as HY. fold Y in HY.
  specialize (H1 Y HY).
  set (V := ditS inv r m s (vscal c2 Y')). pose proof (ditS_ok inv r m s (vscal c2 Y')) as HV. fold V in HV.
  specialize (H2 V HV).
  assert (HYs : fft_spec inv m (r * s) (vscal (c1 * c2) X) (vscal c2 Y)).
  { intros q k Hq Hk. unfold vscal at 1. rewrite HY by auto. rewrite <- DFT_cscal. apply DFT_ext. intros i _. unfold vscal. csimp; ring. }
  assert (HYZ : fft_spec inv (r * m) s (vscal (c1 * c2) X) (ditS inv r m s (vscal c2 Y))).
  { eapply dit_compose; [auto|auto|auto|exact HYs|apply ditS_ok]. }
  set (V2 := ditS inv r m s (vscal c2 Y)) in *. pose proof (ditS_ok inv r m s (vscal c2 Y)) as HV2. fold V2 in HV2.
  assert (EN : (m * (r * s) = r * m * s)%nat) by lia. rewrite EN in H1.
  assert (E0 : nrm (r * m * s) (vsub Z' Z) = nrm (r * m * s) (vsub Z' V2)).
  { apply nrm_ext. intros i Hi. unfold vsub. f_equal. destruct (eucl s i Hs) as (q & k & Hq & ->).
    rewrite HZ, HYZ by (auto; nia). reflexivity. }
  rewrite E0. eapply Rle_trans; [apply (nrm_tri3 _ _ V)|].
  rewrite (dit_norm _ _ _ _ _ _ Hr (dit_sub _ _ _ _ _ _ _ _ HV HV2)).
  assert (E3 : nrm (r * m * s) (vsub (vscal c2 Y') (vscal c2 Y)) = c2 * nrm (r * m * s) (vsub Y' Y)).
  { rewrite <- nrm_vscal by auto. apply nrm_ext. intros i _. unfold vsub, vscal. csimp; ring. }
  rewrite E3.
  pose proof (fft_norm _ _ _ _ _ Hm HY) as HNY. rewrite EN in HNY. rewrite nrm_vscal in HNY by auto.
  pose proof (nrm_near (r * m * s) Y' Y) as HNe.
  rewrite mult_INR, sqrt_mult by apply pos_INR. pose proof (sqrt_pos (INR r)) as S1. pose proof (sqrt_pos (INR m)) as S2.
  pose proof (nrm_pos (r * m * s) X). rewrite (Rmult_comm (sqrt (INR r)) (sqrt (INR m))).
  eapply comp_num; [apply sqrt_ge1; exact Hm|exact S1|exact Hc1|exact Hc2'|exact HE1|exact HE2|assumption|apply flo_pos|exact H1|exact HNY|exact HNe|exact H2].
Qed.

Lemma dif_final_err inv r s c E X Z : (0 < r)%nat -> dif_err inv r 1 s c E X Z -> fft_err inv r s c E X Z.
Proof.
  intros Hr H V HV. specialize (H V). rewrite !Nat.mul_1_r in H. apply H.
  intros p q j Hp Hq Hj. assert (p = 0)%nat as -> by lia. replace (q + s * (j + r * 0))%nat with (q + s * j)%nat by lia.
  rewrite HV by auto. rewrite Nat.mul_0_r, W_0. unfold DFT.
  set (A := csum r _). set (B := csum r _). assert (E0 : A = B) by (apply csum_ext; intros i Hi; do 2 f_equal; lia). rewrite E0. ring.
Qed.
Lemma fft_err_mono inv n s c E E' X Z : 0 <= c -> E <= E' -> fft_err inv n s c E X Z -> fft_err inv n s c E' X Z.
Proof.
  intros Hc HE H V HV. eapply Rle_trans; [apply H; auto|]. pose proof (nrm_pos (n * s) X). pose proof (sqrt_pos (INR n)). pose proof (flo_pos (n * s)).
  assert (0 <= c * nrm (n * s) X) by (apply Rmult_le_pos; auto).
  apply Rmult_le_compat_r; [lra|]. apply Rmult_le_compat_l; [auto|lra].
Qed.
Lemma fft_err_ext inv n s c E X Z Z2 : (forall i, (i < n * s)%nat -> Z i = Z2 i) -> fft_err inv n s c E X Z -> fft_err inv n s c E X Z2.
Proof.
  intros He H V HV. rewrite <- (nrm_ext (n * s) (vsub Z V)); [apply H; auto|]. intros i Hi. unfold vsub. rewrite He; auto.
Qed.

(** ** a pass whose outputs have errors bounded by the sum of the inputs of the butterfly *)
Lemma bern x n : 0 <= x -> 1 + INR n * x <= (1 + x) ^ n.
Proof.
  intros Hx. induction n as [|n IH]; [cbn; lra|]. rewrite S_INR. cbn [pow]. pose proof (pos_INR n).
  assert (1 <= (1 + x) ^ n) by (apply pow_R1_Rle; lra). nra.
Qed.
Lemma root_cost (r c : nat) g : (r <= c * c)%nat -> 0 <= g -> INR r * g <= sqrt (INR r) * ((1 + g) ^ c - 1).
Proof.
  intros Hc Hg. pose proof (pos_INR r) as Hr. pose proof (sqrt_pos (INR r)) as S. pose proof (sqrt_def _ Hr) as E. pose proof (bern g c Hg) as B.
  assert (sqrt (INR r) <= INR c).
  { pose proof (pos_INR c). apply sq_le; auto. rewrite E, <- mult_INR. apply le_INR. auto. }
  replace (INR r * g) with (sqrt (INR r) * (sqrt (INR r) * g)) by (rewrite <- Rmult_assoc, E; auto). apply Rmult_le_compat_l; auto. nra.
Qed.
(** [ix p q i] and [ox p q j]: the inputs and outputs of the butterfly (p, q) *)
Lemma bfly_norm (r m s : nat) (ix ox : nat -> nat -> nat -> nat) (D X : nat -> CC) g :
  (forall f, rsum (r * m * s) f = rsum m (fun p => rsum s (fun q => rsum r (fun i => f (ix p q i))))) ->
  (forall f, rsum (r * m * s) f = rsum m (fun p => rsum s (fun q => rsum r (fun i => f (ox p q i))))) ->
  0 <= g ->
  (forall p q j, (p < m)%nat -> (q < s)%nat -> (j < r)%nat -> cabs (D (ox p q j)) <= g * rsum r (fun i => cabs (X (ix p q i)))) ->
  nrm (r * m * s) D <= INR r * g * nrm (r * m * s) X.
Proof.
  intros Hi Ho Hg H. pose proof (nrm_pos (r * m * s) X) as Px. pose proof (pos_INR r) as Pr.
  apply nrm_le; [apply Rmult_le_pos; auto; apply Rmult_le_pos; auto|].
  replace (INR r * g * nrm (r * m * s) X * (INR r * g * nrm (r * m * s) X)) with (INR r * g * (INR r * g) * (nrm (r * m * s) X * nrm (r * m * s) X)) by ring.
  rewrite nrm_sq. rewrite (Hi (fun i => cnorm2 (X i))), (Ho (fun i => cnorm2 (D i))). rewrite <- rsum_mul.
  apply rsum_le. intros p Hp. rewrite <- rsum_mul. apply rsum_le. intros q Hq.
  set (Sx := rsum r (fun i => cabs (X (ix p q i)))).
  assert (P0 : 0 <= Sx) by (apply rsum_pos; intros; apply cabs_pos).
  assert (H1 : rsum r (fun j => cnorm2 (D (ox p q j))) <= INR r * (g * Sx * (g * Sx))).
  { apply Rle_trans with (rsum r (fun _ => g * Sx * (g * Sx))).
    - apply rsum_le. intros j Hj. rewrite <- cabs_sq. pose proof (cabs_pos (D (ox p q j))). pose proof (H p q j Hp Hq Hj). apply Rmult_le_compat; auto.
    - generalize (g * Sx * (g * Sx)). intros v. clear. induction r as [|r IH]; [cbn; lra|]. cbn [rsum]. rewrite S_INR. lra. }
  pose proof (rsum_cs r (fun i => cabs (X (ix p q i)))) as H2. fold Sx in H2. cbv beta in H2.
  assert (E : rsum r (fun i => cabs (X (ix p q i)) * cabs (X (ix p q i))) = rsum r (fun i => cnorm2 (X (ix p q i)))) by (apply rsum_ext; intros; apply cabs_sq).
  rewrite E in H2. eapply Rle_trans; [exact H1|].
  replace (INR r * (g * Sx * (g * Sx))) with ((INR r * (g * g)) * (Sx * Sx)) by ring.
  eapply Rle_trans; [apply Rmult_le_compat_l; [|exact H2]; apply Rmult_le_pos; [auto|apply Rmult_le_pos; auto]|]. apply Req_le. ring.
Qed.

Definition hat (c : R) (X : nat -> CC) (i : nat) : CC := (c * cabs (X i) + f, 0).
Lemma cabs_real x : 0 <= x -> cabs (x, 0) = x.
Proof. intros H. unfold cabs, cnorm2. cbn [fst snd]. rewrite Rmult_0_l, Rplus_0_r. apply sqrt_square. auto. Qed.
Lemma cabs_hat c X i : 0 <= c -> cabs (hat c X i) = c * cabs (X i) + f.
Proof. intros Hc. apply cabs_real. pose proof (cabs_pos (X i)). nra. Qed.
Lemma nrm_const N x : 0 <= x -> nrm N (fun _ => (x, 0)) = x * sqrt (INR N).
Proof.
  intros Hx. unfold nrm. transitivity (sqrt (x * x * INR N)); [|rewrite sqrt_mult by (try nra; apply pos_INR); rewrite sqrt_square; auto]. f_equal.
  induction N as [|N IH]; [cbn; ring|]. cbn [rsum]. rewrite IH, S_INR. unfold cnorm2. cbn [fst snd]. ring.
Qed.
Lemma nrm_hat N c X : 0 <= c -> nrm N (hat c X) <= c * nrm N X + flo N.
Proof.
  intros Hc. rewrite (nrm_ext N (hat c X) (fun i => @cadd ROps (c * cabs (X i), 0) (f, 0))) by (intros i _; unfold hat; csimp; ring).
  eapply Rle_trans; [apply (nrm_tri N (fun i => (c * cabs (X i), 0)) (fun _ => (f, 0)))|]. rewrite nrm_const by auto. apply Rplus_le_compat_r.
  apply nrm_rel; auto. intros i _. rewrite cabs_real; [lra|]. pose proof (cabs_pos (X i)). nra.
Qed.
(** decimation in frequency / in time passes of radix r with pointwise relative error g *)
Lemma dif_pass_err inv r m s c0 c g X Z' : (r <= c * c)%nat -> 0 <= c0 -> 0 <= g ->
  (forall p q j, (p < m)%nat -> (q < s)%nat -> (j < r)%nat ->
     cabs (csub (Z' (q + s * (j + r * p))%nat) (@cscal ROps c0 (cmul (W inv (r * m) (j * p)) (csum r (fun i => cmul (X (q + s * (p + m * i))%nat) (W inv r (i * j)))))))
       <= g * rsum r (fun i => c0 * cabs (X (q + s * (p + m * i))%nat) + f)) ->
  dif_err inv r m s c0 ((1 + g) ^ c) X Z'.
Proof.
  intros Hc Hc0 Hg H Z HZ.
  eapply Rle_trans.
  - apply (bfly_norm r m s (fun p q i => q + s * (p + m * i))%nat (fun p q j => q + s * (j + r * p))%nat (vsub Z' Z) (hat c0 X) g);
      [apply rsum3'|apply rsum3|auto|].
    intros p q j Hp Hq Hj. unfold vsub. rewrite HZ by auto. specialize (H p q j Hp Hq Hj).
    match type of H with cabs (csub _ ?v) <= _ => match goal with |- cabs (csub _ ?w) <= _ => assert (E : v = w) end end.
    { transitivity (cmul (W inv (r * m) (j * p)) (csum r (fun i => cscal c0 (cmul (X (q + s * (p + m * i))%nat) (W inv r (i * j)))))).
      - rewrite csum_cscal. csimp; ring.
      - f_equal. apply csum_ext. intros i _. unfold vscal. replace (q + s * p + m * s * i)%nat with (q + s * (p + m * i))%nat by lia. csimp; ring. }
    rewrite E in H. eapply Rle_trans; [exact H|]. apply Req_le. f_equal. apply rsum_ext. intros i _. symmetry. apply cabs_hat. auto.
  - pose proof (root_cost r c g Hc Hg). pose proof (nrm_pos (r * m * s) (hat c0 X)). pose proof (pos_INR r).
    apply Rmult_le_compat; [apply Rmult_le_pos; auto|auto|auto|apply nrm_hat; auto].
Qed.
Lemma dit_pass_err inv r m s c g X Z' : (r <= c * c)%nat -> 0 <= g ->
  (forall p q j, (p < m)%nat -> (q < s)%nat -> (j < r)%nat ->
     cabs (csub (Z' (q + s * (p + m * j))%nat) (csum r (fun i => cmul (cmul (X (q + s * (i + r * p))%nat) (W inv (r * m) (i * p))) (W inv r (i * j)))))
       <= g * rsum r (fun i => cabs (X (q + s * (i + r * p))%nat) + f)) ->
  dit_err inv r m s 1 ((1 + g) ^ c) X Z'.
Proof.
  intros Hc Hg H Z HZ.
  eapply Rle_trans.
  - apply (bfly_norm r m s (fun p q j => q + s * (j + r * p))%nat (fun p q i => q + s * (p + m * i))%nat (vsub Z' Z) (hat 1 X) g);
      [apply rsum3|apply rsum3'|auto|].
    intros p q j Hp Hq Hj. unfold vsub. rewrite HZ by auto. specialize (H p q j Hp Hq Hj).
    match type of H with cabs (csub _ ?v) <= _ => match goal with |- cabs (csub _ ?w) <= _ => assert (E : v = w) end end.
    { apply csum_ext. intros i _. do 2 f_equal. unfold vscal. replace (q + r * (s * p) + s * i)%nat with (q + s * (i + r * p))%nat by lia. csimp; ring. }
    rewrite E in H. eapply Rle_trans; [exact H|]. apply Req_le. f_equal. apply rsum_ext. intros i _. rewrite cabs_hat by lra. ring.
  - pose proof (root_cost r c g Hc Hg). pose proof (nrm_pos (r * m * s) (hat 1 X)). pose proof (pos_INR r).
    apply Rmult_le_compat; [apply Rmult_le_pos; auto|auto|auto|apply nrm_hat; lra].
Qed.
Lemma fft_err_extX inv n s c E X X2 Z : (forall i, (i < n * s)%nat -> X i = X2 i) -> fft_err inv n s c E X Z -> fft_err inv n s c E X2 Z.
Proof.
  intros He H V HV. rewrite <- (nrm_ext (n * s) X X2) by auto. apply H. intros q k Hq Hk. rewrite HV by auto.
  apply DFT_ext. intros j Hj. unfold vscal. rewrite He; auto. nia.
Qed.
(** a pass followed by a pointwise multiplication by factors of modulus c2, with pointwise relative error E2 *)
Lemma point_err N (c2 E2 : R) (w R0 R' Y' Y : nat -> CC) e b P : 0 <= c2 <= 1 -> 1 <= E2 -> 1 <= e -> 0 <= b -> flo N <= P ->
  (forall i, (i < N)%nat -> cabs (w i) = c2) ->
  (forall i, (i < N)%nat -> cabs (csub (Y' i) (cmul (w i) (R' i))) <= (E2 - 1) * (c2 * cabs (R' i) + f)) ->
  (forall i, (i < N)%nat -> Y i = cmul (w i) (R0 i)) ->
  nrm N R0 <= b -> nrm N (vsub R' R0) <= (e - 1) * (b + P) ->
  nrm N (vsub Y' Y) <= (E2 * e - 1) * (c2 * b + P).
Proof.
  intros [Hc Hc1] HE He1 Hb0 HP Hw HY' HY Hb He. pose proof (flo_pos N) as Pf.
  set (M := fun i => cmul (w i) (R' i)).
  eapply Rle_trans; [apply (nrm_tri3 _ _ M)|].
  assert (G1 : nrm N (vsub Y' M) <= (E2 - 1) * (c2 * nrm N R' + flo N)).
  { apply Rle_trans with ((E2 - 1) * nrm N (hat c2 R')); [|apply Rmult_le_compat_l; [lra|apply nrm_hat; auto]].
    apply nrm_rel; [lra|]. intros i Hi. rewrite cabs_hat by auto. unfold vsub, M. apply HY'. auto. }
  assert (G2 : nrm N (vsub M Y) <= c2 * nrm N (vsub R' R0)).
  { apply nrm_rel; [auto|]. intros i Hi. unfold vsub, M. rewrite HY by auto. replace (csub (cmul (w i) (R' i)) (cmul (w i) (R0 i))) with (cmul (w i) (csub (R' i) (R0 i))) by ring.
    rewrite cabs_mul, Hw by auto. lra. }
  pose proof (nrm_near N R' R0) as G3. set (d := nrm N (vsub R' R0)) in *. set (y := nrm N R') in *.
  assert (G4 : c2 * d <= (e - 1) * (c2 * b + P)).
  { assert (c2 * d <= c2 * ((e - 1) * (b + P))) by (apply Rmult_le_compat_l; auto). assert (c2 * ((e - 1) * P) <= 1 * ((e - 1) * P)) by (apply Rmult_le_compat_r; [apply Rmult_le_pos; lra|auto]). nra. }
  assert (G5 : c2 * y + flo N <= e * (c2 * b + P)).
  { assert (c2 * y <= c2 * (b + d)) by (apply Rmult_le_compat_l; lra). nra. }
  assert ((E2 - 1) * (c2 * y + flo N) <= (E2 - 1) * (e * (c2 * b + P))) by (apply Rmult_le_compat_l; lra). nra.
Qed.
End Floor.
