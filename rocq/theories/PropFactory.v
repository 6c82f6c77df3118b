(** * C26: the factory picks a supported instruction set or throws *)

From Coq Require Import List Arith ZArith Bool Lia.
From Verif Require Import Scalar RealOps Mem Omp Object Engine ApiSpec ModelApi History ApiFacts ComplexThms ModelReal RealRun RealObj DctRun
  ModelBluestein BluesteinRun GObj ModelFactory.
Import ListNotations.
Local Open Scope Z_scope.

(** ** specification, in terms of single CPUID / XCR0 bits (Intel SDM vol. 1, 14.3) *)
Definition bit (v i : Z) : Prop := Z.testbit v i = true.
(** the operating system has enabled XGETBV: CPUID.1:ECX.OSXSAVE[27] *)
Definition osxsave (c : cpu) : Prop := bit (ecx (cpuid c 1)) 27.
(** XSAVE implemented (ECX[26]) and XMM and YMM state enabled in XCR0 (bits 1 and 2) *)
Definition ymm_enabled (c : cpu) : Prop := bit (ecx (cpuid c 1)) 26 /\ bit (xcr0 c) 1 /\ bit (xcr0 c) 2.
Definition supports (c : cpu) (i : isa) : Prop :=
  match i with
  | SSE2 => bit (edx (cpuid c 1)) 26
  | AVX => osxsave c /\ ymm_enabled c /\ bit (ecx (cpuid c 1)) 28
  | AVX2 => osxsave c /\ ymm_enabled c /\ 7 <= eax (cpuid c 0) /\ bit (ebx (cpuid c 7)) 5
  end.
Definition compiled (cfg : config) (i : isa) : Prop :=
  match i with SSE2 => with_sse2 cfg = true | AVX => with_avx cfg = true | AVX2 => with_avx2 cfg = true end.
Definition requested (t : opt) (i : isa) : Prop :=
  match t, i with AUTO, _ => True | OSSE2, SSE2 => True | OAVX, AVX => True | OAVX2, AVX2 => True | _, _ => False end.
(** the preference order AVX2, AVX, SSE2 *)
Definition rank (i : isa) : nat := match i with AVX2 => 2 | AVX => 1 | SSE2 => 0 end.
Definition candidate (cfg : config) (c : cpu) (t : opt) (i : isa) : Prop := compiled cfg i /\ supports c i /\ requested t i.

(** ** bits *)
Lemma anyset_bit v i : 0 <= i -> anyset v (2 ^ i) = true <-> bit v i.
Proof.
  intros Hi. unfold anyset, bit. rewrite negb_true_iff. split.
  - intros H. apply Z.eqb_neq in H. destruct (Z.testbit v i) eqn:E; [reflexivity|]. exfalso. apply H.
    apply Z.bits_inj_0. intros j. rewrite Z.land_spec. destruct (Z.eq_dec i j) as [<-|Hne]; [rewrite E; reflexivity|].
    rewrite Z.pow2_bits_false by auto. apply andb_false_r.
  - intros H. apply Z.eqb_neq. intros E. apply (f_equal (fun z => Z.testbit z i)) in E.
    rewrite Z.land_spec, H, Z.pow2_bits_true, Z.bits_0 in E by lia. discriminate.
Qed.
Lemma land6 v : Z.land v 6 =? 6 = true <-> bit v 1 /\ bit v 2.
Proof.
  unfold bit. rewrite Z.eqb_eq. split.
  - intros E. split; [apply (f_equal (fun z => Z.testbit z 1)) in E|apply (f_equal (fun z => Z.testbit z 2)) in E]; rewrite Z.land_spec in E;
      [change (Z.testbit 6 1) with true in E|change (Z.testbit 6 2) with true in E]; rewrite andb_true_r in E; exact E.
  - intros [H1 H2]. apply Z.bits_inj'. intros j Hj. rewrite Z.land_spec.
    destruct (Z.eq_dec j 1) as [->|]; [rewrite H1; reflexivity|]. destruct (Z.eq_dec j 2) as [->|]; [rewrite H2; reflexivity|].
    assert (E : Z.testbit 6 j = false).
    { destruct (Z.eq_dec j 0) as [->|]; [reflexivity|]. apply Z.bits_above_log2; [lia|]. change (Z.log2 6) with 2. lia. }
    rewrite E. apply andb_false_r.
Qed.

Lemma sysinfo_spec c : 1 <= eax (cpuid c 0) -> osxsave c ->
  exists f, sysinfo c = Some f /\ (f_sse2 f = true <-> supports c SSE2) /\ (f_avx f = true <-> supports c AVX) /\ (f_avx2 f = true <-> supports c AVX2).
Proof.
  intros H0 Hx. unfold sysinfo. cbv zeta. rewrite (proj2 (Z.gtb_gt _ 0)) by lia. unfold xgetbv.
  pose proof (proj2 (anyset_bit (ecx (cpuid c 1)) 27 ltac:(lia)) Hx) as Ex. change (2 ^ 27) with 0x08000000 in Ex. rewrite Ex.
  eexists. split; [reflexivity|]. cbn [f_sse2 f_avx f_avx2].
  pose proof (anyset_bit (ecx (cpuid c 1)) 26 ltac:(lia)) as E26. change (2 ^ 26) with 0x04000000 in E26.
  pose proof (anyset_bit (ecx (cpuid c 1)) 28 ltac:(lia)) as E28. change (2 ^ 28) with 0x10000000 in E28.
  pose proof (anyset_bit (edx (cpuid c 1)) 26 ltac:(lia)) as D26. change (2 ^ 26) with 0x04000000 in D26.
  pose proof (anyset_bit (ebx (cpuid c 7)) 5 ltac:(lia)) as B5. change (2 ^ 5) with 0x00000020 in B5.
  pose proof (land6 (xcr0 c)) as L6.
  unfold supports, ymm_enabled. split; [exact D26|]. rewrite !andb_true_iff. split; [tauto|].
  destruct (Z.geb_spec (eax (cpuid c 0)) 7) as [H7|H7]; cbn [andb].
  - destruct (anyset (ecx (cpuid c 1)) 0x04000000 && (Z.land (xcr0 c) 6 =? 6)) eqn:E.
    + apply andb_prop in E as [E1 E2]. rewrite B5. tauto.
    + split; [discriminate|]. intros (_ & (Y1 & Y2) & _). apply E26 in Y1. apply L6 in Y2. rewrite Y1, Y2 in E. discriminate.
  - split; [discriminate|]. lia.
Qed.

(** C26: on a processor whose operating system has enabled XGETBV, every create function returns an object of the
    requested class for the requested length from a compiled-in, supported and requested build, the best such build
    in the order AVX2, AVX, SSE2 ... *)
Theorem C26_factory_picks_best_supported : forall k cfg c n t p,
  1 <= eax (cpuid c 0) -> osxsave c -> create k cfg c n t = Ok p ->
  p_kind p = k /\ p_n p = n /\ candidate cfg c t (p_isa p) /\ forall i, candidate cfg c t i -> (rank i <= rank (p_isa p))%nat.
Proof.
  intros k cfg c n t p H0 Hx. destruct (sysinfo_spec c H0 Hx) as (f & E & S1 & S2 & S3). unfold create. rewrite E.
  intros H.
  destruct (with_avx2 cfg && (f_avx2 f && (opt_eqb t AUTO || opt_eqb t OAVX2))) eqn:C2;
  [|destruct (with_avx cfg && (f_avx f && (opt_eqb t AUTO || opt_eqb t OAVX))) eqn:C1;
    [|destruct (with_sse2 cfg && (f_sse2 f && (opt_eqb t AUTO || opt_eqb t OSSE2))) eqn:C0; [|discriminate]]].
  - injection H as <-. cbn [p_kind p_n p_isa rank]. split; [reflexivity|]. split; [reflexivity|]. split; [split; [|split]|].
    + apply andb_prop in C2 as [C2 _]. exact C2.
    + apply S3. apply andb_prop in C2 as [_ C2]. apply andb_prop in C2 as [C2 _]. exact C2.
    + apply andb_prop in C2 as [_ C2]. apply andb_prop in C2 as [_ C2]. destruct t; cbn in C2 |- *; auto; discriminate C2.
    + intros i _. destruct i; cbn; lia.
  - injection H as <-. cbn [p_kind p_n p_isa rank]. split; [reflexivity|]. split; [reflexivity|]. split; [split; [|split]|].
    + apply andb_prop in C1 as [C1 _]. exact C1.
    + apply S2. apply andb_prop in C1 as [_ C1]. apply andb_prop in C1 as [C1 _]. exact C1.
    + apply andb_prop in C1 as [_ C1]. apply andb_prop in C1 as [_ C1]. destruct t; cbn in C1 |- *; auto; discriminate C1.
    + intros i (A & B & D). destruct i; cbn; try lia. apply S3 in B. cbn in A. rewrite A, B in C2. destruct t; cbn in *; try contradiction; discriminate.
  - injection H as <-. cbn [p_kind p_n p_isa rank]. split; [reflexivity|]. split; [reflexivity|]. split; [split; [|split]|].
    + apply andb_prop in C0 as [C0 _]. exact C0.
    + apply S1. apply andb_prop in C0 as [_ C0]. apply andb_prop in C0 as [C0 _]. exact C0.
    + apply andb_prop in C0 as [_ C0]. apply andb_prop in C0 as [_ C0]. destruct t; cbn in C0 |- *; auto; discriminate C0.
    + intros i (A & B & D). destruct i; cbn; try lia.
      * apply S2 in B. cbn in A. rewrite A, B in C1. destruct t; cbn in *; try contradiction; discriminate.
      * apply S3 in B. cbn in A. rewrite A, B in C2. destruct t; cbn in *; try contradiction; discriminate.
Qed.
Print Assumptions C26_factory_picks_best_supported.
(** ... and throws exactly when there is no candidate *)
Theorem C26_factory_throws_iff : forall k cfg c n t,
  1 <= eax (cpuid c 0) -> osxsave c ->
  (create k cfg c n t = Throws <-> forall i, ~ candidate cfg c t i).
Proof.
  intros k cfg c n t H0 Hx. destruct (create k cfg c n t) as [p| |] eqn:E.
  - split; [discriminate|]. intros H. destruct (C26_factory_picks_best_supported k cfg c n t p H0 Hx E) as (_ & _ & Hc & _). destruct (H _ Hc).
  - split; auto. intros _ i (A & B & D). revert E. unfold create. destruct (sysinfo_spec c H0 Hx) as (f & -> & S1 & S2 & S3).
    destruct i; cbn in A; rewrite A; [rewrite (proj2 S1 B)|rewrite (proj2 S2 B)|rewrite (proj2 S3 B)]; destruct t; cbn in D; try contradiction; cbn;
      repeat match goal with |- context [if ?e then _ else _] => destruct e end; discriminate.
  - exfalso. revert E. unfold create. destruct (sysinfo_spec c H0 Hx) as (f & -> & _).
    repeat match goal with |- context [if ?e then _ else _] => destruct e end; discriminate.
Qed.
Print Assumptions C26_factory_throws_iff.

(** a created object can always be destroyed: the deleter does not throw and runs code of a compiled-in, supported build *)
Theorem C26_deleter_never_throws_after_create : forall k cfg c n t p,
  1 <= eax (cpuid c 0) -> osxsave c -> create k cfg c n t = Ok p ->
  exists i, deleter cfg c = Ok i /\ compiled cfg i /\ supports c i /\ (rank (p_isa p) <= rank i)%nat.
Proof.
  intros k cfg c n t p H0 Hx E.
  destruct (C26_factory_picks_best_supported k cfg c n t p H0 Hx E) as (_ & _ & (A & B & _) & _).
  unfold deleter. destruct (sysinfo_spec c H0 Hx) as (f & -> & S1 & S2 & S3).
  destruct (with_avx2 cfg && f_avx2 f) eqn:C2; [|destruct (with_avx cfg && f_avx f) eqn:C1; [|destruct (with_sse2 cfg && f_sse2 f) eqn:C0]].
  - apply andb_prop in C2 as [H1 H2]. exists AVX2. split; [reflexivity|]. split; [exact H1|]. split; [apply S3; exact H2|]. destruct (p_isa p); cbn; lia.
  - apply andb_prop in C1 as [H1 H2]. exists AVX. split; [reflexivity|]. split; [exact H1|]. split; [apply S2; exact H2|]. destruct (p_isa p); cbn; try lia.
    apply S3 in B. cbn in A. rewrite A, B in C2. discriminate.
  - apply andb_prop in C0 as [H1 H2]. exists SSE2. split; [reflexivity|]. split; [exact H1|]. split; [apply S1; exact H2|]. destruct (p_isa p); cbn; try lia.
    + apply S2 in B. cbn in A. rewrite A, B in C1. discriminate.
    + apply S3 in B. cbn in A. rewrite A, B in C2. discriminate.
  - exfalso. destruct (p_isa p); cbn in A.
    + apply S1 in B. rewrite A, B in C0. discriminate.
    + apply S2 in B. rewrite A, B in C1. discriminate.
    + apply S3 in B. rewrite A, B in C2. discriminate.
Qed.
Print Assumptions C26_deleter_never_throws_after_create.

(** the two excluded cases.  A processor that reports no CPUID leaf beyond 0 gets std::domain_error ... *)
Theorem C26_no_cpuid_leaves : forall k cfg c n t, eax (cpuid c 0) <= 0 -> create k cfg c n t = Throws.
Proof.
  intros k cfg c n t H. unfold create, sysinfo. cbv zeta. destruct (Z.gtb_spec (eax (cpuid c 0)) 0); [lia|]. cbn.
  rewrite !andb_false_r. reflexivity.
Qed.
Print Assumptions C26_no_cpuid_leaves.
(** ... and where the operating system has not enabled XGETBV, detection executes it all the same: an illegal
    instruction, even though the SSE2 build would run *)
Theorem C26_no_osxsave_illegal_instruction : forall k cfg c n t, 1 <= eax (cpuid c 0) -> ~ osxsave c -> create k cfg c n t = Illegal.
Proof.
  intros k cfg c n t H0 Hx. unfold create, sysinfo, xgetbv. cbv zeta. rewrite (proj2 (Z.gtb_gt _ 0)) by lia.
  destruct (anyset (ecx (cpuid c 1)) 0x08000000) eqn:E; [|reflexivity]. exfalso. apply Hx.
  apply (anyset_bit _ 27); [lia|]. exact E.
Qed.
Print Assumptions C26_no_osxsave_illegal_instruction.

(** what has been created is the object the other properties speak about: the constructor runs setup(n), after which
    the object is configured for length n (any memory, any schedule) *)
Theorem C26_created_object_is_configured : forall (Op : Ops) k cfg c n t p b (m0 : mem C), create k cfg c n t = Ok p ->
  match k with
  | Complex => forall m1, call_exec (product_setup b p) m0 m1 -> fft_history b (Some n) m1
  | Real => forall m1, call_exec (product_setup b p) m0 m1 -> rfft_history b (Some n) m1
  | Dct => forall m1, call_exec (product_setup b p) m0 m1 -> dct_history b (Some n) m1
  | BluesteinK => (1 <= n)%nat -> forall m1, call_exec (product_setup b p) m0 m1 -> bl_history b (Some n) m1
  end.
Proof.
  intros Op k cfg c n t p b m0 H.
  assert (Hp : p_kind p = k /\ p_n p = n).
  { revert H. unfold create. destruct (sysinfo c) as [f|]; [|discriminate].
    repeat match goal with |- context [if ?e then _ else _] => destruct e end; intros H; try discriminate H; injection H as <-; auto. }
  destruct Hp as [<- <-]. unfold product_setup. destruct (p_kind p).
  - intros m1 He. exact (h_setup (fft_own b) (fun _ n => Some n) (fft_setup b) _ None m0 m1 (p_n p) (h_start _ _ _ _ m0) He).
  - intros m1 He. exact (h_setup (fft_own b) (fun _ n => Some n) (rfft_setup b) _ None m0 m1 (p_n p) (h_start _ _ _ _ m0) He).
  - intros m1 He. exact (h_setup (dct_own b) (fun _ n => Some n) (dct_setup b) _ None m0 m1 (p_n p) (h_start _ _ _ _ m0) He).
  - intros Hn m1 He. assert (Ec : bl_conf None (p_n p) = Some (p_n p)).
    { unfold bl_conf. destruct (Nat.ltb_spec (p_n p) 1); [lia|reflexivity]. }
    unfold bl_history, ghistory. rewrite <- Ec. exact (h_setup _ _ (bl_setup b) _ None m0 m1 (p_n p) (h_start _ _ _ _ m0) He).
Qed.
Print Assumptions C26_created_object_is_configured.

(** ** the hypotheses are met: a processor with AVX but not AVX2, all builds compiled in *)
Definition cpu_avx : cpu :=
  {| cpuid := fun l => if l =? 0 then {| eax := 13; ebx := 0; ecx := 0; edx := 0 |}
                       else if l =? 1 then {| eax := 0; ebx := 0; ecx := 0x1C000000; edx := 0x04000000 |}
                       else {| eax := 0; ebx := 0; ecx := 0; edx := 0 |};
     xcr0 := 7 |}.
Definition all_builds : config := {| with_sse2 := true; with_avx := true; with_avx2 := true |}.
Example C26_example : 1 <= eax (cpuid cpu_avx 0) /\ osxsave cpu_avx /\
  create Complex all_builds cpu_avx 1000 AUTO = Ok {| p_isa := AVX; p_kind := Complex; p_n := 1000 |} /\
  create Real all_builds cpu_avx 8 OAVX2 = Throws /\ create Dct all_builds cpu_avx 8 OSSE2 = Ok {| p_isa := SSE2; p_kind := Dct; p_n := 8 |} /\
  deleter all_builds cpu_avx = Ok AVX.
Proof. cbn [cpuid eax cpu_avx Z.eqb]. split; [lia|]. split; [reflexivity|]. repeat split; reflexivity. Qed.
(** the hypothesis ~osxsave is met by a processor with SSE2 and without XSAVE *)
Definition cpu_sse2 : cpu :=
  {| cpuid := fun l => if l =? 0 then {| eax := 10; ebx := 0; ecx := 0; edx := 0 |}
                       else {| eax := 0; ebx := 0; ecx := 0; edx := 0x04000000 |};
     xcr0 := 0 |}.
Example C26_example_illegal : 1 <= eax (cpuid cpu_sse2 0) /\ ~ osxsave cpu_sse2 /\ supports cpu_sse2 SSE2 /\
  create Complex all_builds cpu_sse2 8 OSSE2 = Illegal.
Proof. split; [cbn; lia|]. split; [discriminate|]. split; reflexivity. Qed.
