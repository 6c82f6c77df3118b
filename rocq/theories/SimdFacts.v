(** * Every SIMD helper acts lane by lane as the corresponding operation of the model *)

From Coq Require Import Reals ZArith List Bool FunctionalExtensionality.
From Verif Require Import Scalar RealOps Simd.
Import ListNotations.

(** the complex numbers held by a ymm: lane false = lo, lane true = hi *)
Definition lane2 {Op : Ops} (b : build) (l : bool) (y : ymm b) : C := (if l then snd else fst) (setpz2 b y).
(** the complex numbers held by an emm *)
Definition lane4 {Op : Ops} (b : build) (h l : bool) (z : emm b) : C := lane2 b l ((if h then snd else fst) z).

Section Facts.
Context {Op : Ops}.
Variables (sfma sfms : Sc -> Sc -> Sc -> Sc).
Variable b : build.
Let BO := build_ops sfma sfms b.
Notation L := (lane2 b).

(** what it means that a helper on xmm, one on ymm and one on emm compute f in every lane *)
Record lanewise1 (f : C -> C) (x : xmm -> xmm) (y : ymm b -> ymm b) (e : emm b -> emm b) : Prop := {
  lw1_x : forall z, x z = f z;
  lw1_y : forall v l, L l (y v) = f (L l v);
  lw1_e : forall v h l, lane4 b h l (e v) = f (lane4 b h l v) }.
Record lanewise2 (f : C -> C -> C) (x : xmm -> xmm -> xmm) (y : ymm b -> ymm b -> ymm b) (e : emm b -> emm b -> emm b) : Prop := {
  lw2_x : forall z w, x z w = f z w;
  lw2_y : forall v w l, L l (y v w) = f (L l v) (L l w);
  lw2_e : forall v w h l, lane4 b h l (e v w) = f (lane4 b h l v) (lane4 b h l w) }.

Ltac crush := intros; repeat match goal with
  | v : emm b |- _ => destruct v | v : xmm |- _ => destruct v | z : C |- _ => destruct z | h : bool |- _ => destruct h end;
  repeat match goal with v : ymm b |- _ => revert v end; unfold BO; destruct b; cbn; intros;
  repeat match goal with v : m256 |- _ => destruct v | v : (_ * _)%type |- _ => destruct v end; cbn; try reflexivity.
Ltac lw := constructor; crush.

Lemma cnj_lanes : lanewise1 (@cconj BO) (cnjpz b) (cnjpz2 b) (cnjez4 b). Proof. lw. Qed.
Lemma jx_lanes : lanewise1 (@jx BO) (jxpz b) (jxpz2 b) (jxez4 b). Proof. lw. Qed.
Lemma add_lanes : lanewise2 (@cadd BO) (addpz b) (addpz2 b) (addez4 b). Proof. lw. Qed.
Lemma sub_lanes : lanewise2 (@csub BO) (subpz b) (subpz2 b) (subez4 b). Proof. lw. Qed.
Lemma mul_lanes : lanewise2 (@cmul BO) (mulpz sfma sfms b) (mulpz2 sfma sfms b) (mulez4 sfma sfms b). Proof. lw. Qed.
Lemma v8_lanes : lanewise1 (@v8x BO) (v8xpz b) (v8xpz2 b) (v8xez4 b). Proof. lw. Qed.
Lemma w8_lanes : lanewise1 (@w8x BO) (w8xpz b) (w8xpz2 b) (w8xez4 b). Proof. lw. Qed.
Lemma h1_lanes : lanewise1 (@h1x BO) (h1xpz sfma sfms b) (h1xpz2 sfma sfms b) (h1xez4 sfma sfms b). Proof. lw. Qed.
Lemma h3_lanes : lanewise1 (@h3x BO) (h3xpz sfma sfms b) (h3xpz2 sfma sfms b) (h3xez4 sfma sfms b). Proof. lw. Qed.
Lemma hf_lanes : lanewise1 (@hfx BO) (hfxpz sfma sfms b) (hfxpz2 sfma sfms b) (hfxez4 sfma sfms b). Proof. lw. Qed.
Lemma hd_lanes : lanewise1 (@hdx BO) (hdxpz sfma sfms b) (hdxpz2 sfma sfms b) (hdxez4 sfma sfms b). Proof. lw. Qed.
Lemma neg_lane z : negpz b z = @cneg BO z. Proof. crush. Qed.
Lemma mjx_lane z : mjxpz b z = @mjx BO z. Proof. crush. Qed.
Lemma scale_lanes N mode : lanewise1 (@scalepz BO N mode) (scalepz_ b N mode) (scalepz2 b N mode) (scaleez4 b N mode).
Proof. destruct mode; lw. Qed.
(** multiplication by a real number broadcast to both halves (mulpd, mulpd2, muled4) *)
Lemma mulpd_lanes s z : mulpd b (s, s) z = @cscal BO s z. Proof. crush. Qed.
Lemma mulpd2_lanes s v l : L l (mulpd2 b (cmplx2 b s s s s) v) = @cscal BO s (L l v). Proof. crush. Qed.
Lemma muled4_lanes s v h l : lane4 b h l (muled4 b (cmplx2 b s s s s, cmplx2 b s s s s) v) = @cscal BO s (lane4 b h l v).
Proof. crush. Qed.
Lemma hadd_lane x y : haddpz b x y = mkC (sadd (Re x) (Im x)) (sadd (Re y) (Im y)). Proof. crush. Qed.

End Facts.

Section Moves.
Context {Op : Ops}.
Variable b : build.
Notation L := (lane2 b).
Ltac crush := intros; repeat match goal with
  | v : emm b |- _ => destruct v | v : xmm |- _ => destruct v | z : C |- _ => destruct z | h : bool |- _ => destruct h end;
  repeat match goal with v : ymm b |- _ => revert v end; destruct b; cbn; intros;
  repeat match goal with v : m256 |- _ => destruct v | v : (_ * _)%type |- _ => destruct v end; cbn; try reflexivity.
(** loads, stores and data movements *)
Lemma get2_lane z0 z1 l : L l (getpz2 b z0 z1) = if l then z1 else z0. Proof. crush. Qed.
Lemma set2_get2 z0 z1 : setpz2 b (getpz2 b z0 z1) = (z0, z1). Proof. crush. Qed.
Lemma get4_lane z0 z1 z2 z3 h l : lane4 b h l (getez4 b z0 z1 z2 z3) = if h then (if l then z3 else z2) else if l then z1 else z0.
Proof. crush. Qed.
Lemma set4_lanes v : setez4 b v = ((lane4 b false false v, lane4 b false true v), (lane4 b true false v, lane4 b true true v)).
Proof. crush. Qed.
Lemma set2_lanes v : setpz2 b v = (L false v, L true v). Proof. crush. Qed.
Lemma getlo_lane v : getlo b v = L false v. Proof. crush. Qed.
Lemma gethi_lane v : gethi b v = L true v. Proof. crush. Qed.
Lemma dup2_lane z l : L l (duppz2 b z) = z. Proof. crush. Qed.
Lemma dup4_lane z h l : lane4 b h l (dupez4 b z) = z. Proof. crush. Qed.
Lemma cmplx2_lane a0 b0 c0 d0 l : L l (cmplx2 b a0 b0 c0 d0) = if l then mkC c0 d0 else mkC a0 b0. Proof. crush. Qed.
Lemma cat_lane u x y l : L l (cat b u x y) = if l then y else x. Proof. crush. Qed.
Lemma catlo_lane v w l : L l (catlo b v w) = if l then L false w else L false v. Proof. crush. Qed.
Lemma cathi_lane v w l : L l (cathi b v w) = if l then L true w else L true v. Proof. crush. Qed.
Lemma swap_lane v l : L l (swaplohi b v) = L (negb l) v. Proof. crush. Qed.
End Moves.

(** ** Builds without FMA agree whenever the scalar arithmetic satisfies three laws, which IEEE-754 doubles do
    (addition is commutative, a-b is a+(-b), and negation commutes with the product; Ieee.v) *)
Section NoFma.
Context {Op : Ops}.
Variables (sfma sfms sfma' sfms' : Sc -> Sc -> Sc -> Sc).
Hypothesis Hcomm : forall x y, sadd x y = sadd y x.
Hypothesis Hsub : forall x y, ssub x y = sadd x (sneg y).
Hypothesis Hneg : forall x y, smul x (sneg y) = sneg (smul x y).
Lemma build_six_nofma b b' : has_fma b = false -> has_fma b' = false -> build_six sfma sfms b = build_six sfma' sfms' b'.
Proof.
  intros H1 H2. unfold build_six. f_equal; repeat (apply functional_extensionality; intro);
    destruct b; try discriminate; destruct b'; try discriminate; rewrite ?Hsub, ?Hneg; auto; f_equal; auto.
Qed.
End NoFma.

(** ** Exact arithmetic: all builds agree *)
Section Exact.
Local Open Scope R_scope.
Definition rfma (x y z : R) : R := x * y + z.
Definition rfms (x y z : R) : R := x * y - z.
Definition R_six : six ROps := {| k_mulre := @smulre ROps; k_mulim := @smulim ROps; k_v8re := @sv8re ROps; k_v8im := @sv8im ROps;
  k_w8re := @sw8re ROps; k_w8im := @sw8im ROps |}.
Definition build_R (b : build) : Ops := @build_ops ROps rfma rfms b.
Lemma build_six_R b : @build_six ROps rfma rfms b = R_six.
Proof.
  unfold build_six, R_six, ROps. cbn [Sc sadd ssub smul sdiv sneg ssqrt scos ssin sofZ spi ssqrt1_2 sH1X sH1Y smulre smulim sv8re sv8im sw8re sw8im].
  f_equal; repeat (apply functional_extensionality; intro);
    destruct b; unfold rfma, rfms; cbn [sadd ssub smul sneg ssqrt1_2]; ring.
Qed.
Lemma R_six_ROps : @set_ops ROps R_six = ROps.
Proof. reflexivity. Qed.
End Exact.
