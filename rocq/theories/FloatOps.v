(** The operations of binary64 in terms of real numbers. *)
From Verif Require Import Base Num Text FmtProofs FloatProofs.
From Coq Require Import Reals Lra Floats.SpecFloat.
From Flocq Require Import Core BinarySingleNaN.
Local Open Scope R_scope.
#[local] Existing Instances prec53 emax1024.
Notation bf := (binary_float 53 1024).
Definition fin (x : F) : Prop := valid_binary 53 1024 x = true /\ is_finite_SF x = true.

Lemma fin_B x : fin x -> exists b : bf, B2SF b = x /\ is_finite b = true /\ B2R b = fval x.
Proof.
  intros [V Hf]. exists (SF2B x V). split; [apply B2SF_SF2B|]. split.
  - rewrite is_finite_SF2B. exact Hf.
  - rewrite B2R_SF2B. apply SF2R_fval.
Qed.
Lemma B_valid (b : bf) : valid_binary 53 1024 (B2SF b) = true.
Proof. apply valid_binary_B2SF. Qed.
Lemma B_fval (b : bf) : fval (B2SF b) = B2R b.
Proof. rewrite <- SF2R_fval. apply SF2R_B2SF. Qed.
Lemma B_fin (b : bf) : is_finite b = true -> fin (B2SF b).
Proof. intros Hb. split; [apply B_valid|]. destruct b; auto. Qed.

Lemma normalize_equiv m e sz : SpecFloat.binary_normalize 53 1024 m e sz = B2SF (binary_normalize 53 1024 prec53 emax1024 mode_NE m e sz).
Proof. destruct m; [reflexivity|..]; cbn; rewrite B2SF_SF2B; apply round_equiv. Qed.
Lemma add_equiv (x y : bf) : SFadd 53 1024 (B2SF x) (B2SF y) = B2SF (Bplus mode_NE x y).
Proof.
  destruct x as [sx|sx| |sx mx ex Bx], y as [sy|sy| |sy my ey By]; try (now (trivial || simpl; case Bool.eqb)). apply normalize_equiv.
Qed.
Lemma sub_equiv (x y : bf) : SFsub 53 1024 (B2SF x) (B2SF y) = B2SF (Bminus mode_NE x y).
Proof.
  destruct x as [sx|sx| |sx mx ex Bx], y as [sy|sy| |sy my ey By]; try (now (trivial || simpl; case Bool.eqb)).
  simpl. unfold Zminus. rewrite <- cond_Zopp_negb. apply normalize_equiv.
Qed.
Lemma mul_equiv (x y : bf) : SFmul 53 1024 (B2SF x) (B2SF y) = B2SF (Bmult mode_NE x y).
Proof.
  destruct x as [sx|sx| |sx mx ex Bx], y as [sy|sy| |sy my ey By]; try (now trivial). simpl. rewrite B2SF_SF2B. apply round_aux_equiv.
Qed.
Lemma div_equiv (x y : bf) : SFdiv 53 1024 (B2SF x) (B2SF y) = B2SF (Bdiv mode_NE x y).
Proof.
  destruct x as [sx|sx| |sx mx ex Bx], y as [sy|sy| |sy my ey By]; try (now (trivial || simpl; case Bool.eqb)).
  simpl. rewrite B2SF_SF2B. set (melz := SFdiv_core_binary _ _ _ _ _ _). case melz as [[mz ez] lz]. apply round_aux_equiv.
Qed.

Lemma rnd_RN v : round radix2 (SpecFloat.fexp 53 1024) (round_mode mode_NE) v = RN v.
Proof. reflexivity. Qed.
(** Each operation gives the rounding of the exact result, when that is in range. *)
Lemma fadd_fin x y : fin x -> fin y -> in_f64 (fval x + fval y) -> fin (SFadd 53 1024 x y) /\ fval (SFadd 53 1024 x y) = RN (fval x + fval y).
Proof.
  intros Hx Hy Hr. destruct (fin_B x Hx) as (a & <- & Fa & Va), (fin_B y Hy) as (b & <- & Fb & Vb). rewrite add_equiv.
  pose proof (Bplus_correct 53 1024 prec53 emax1024 mode_NE a b Fa Fb) as C. rewrite Va, Vb, rnd_RN in C.
  unfold in_f64 in Hr. rewrite Rlt_bool_true in C by exact Hr. destruct C as (C1 & C2 & _).
  split; [apply B_fin, C2|]. rewrite B_fval. exact C1.
Qed.
Lemma fsub_fin x y : fin x -> fin y -> in_f64 (fval x - fval y) -> fin (SFsub 53 1024 x y) /\ fval (SFsub 53 1024 x y) = RN (fval x - fval y).
Proof.
  intros Hx Hy Hr. destruct (fin_B x Hx) as (a & <- & Fa & Va), (fin_B y Hy) as (b & <- & Fb & Vb). rewrite sub_equiv.
  pose proof (Bminus_correct 53 1024 prec53 emax1024 mode_NE a b Fa Fb) as C. rewrite Va, Vb, rnd_RN in C.
  unfold in_f64 in Hr. rewrite Rlt_bool_true in C by exact Hr. destruct C as (C1 & C2 & _).
  split; [apply B_fin, C2|]. rewrite B_fval. exact C1.
Qed.
Lemma fmul_fin x y : fin x -> fin y -> in_f64 (fval x * fval y) -> fin (SFmul 53 1024 x y) /\ fval (SFmul 53 1024 x y) = RN (fval x * fval y).
Proof.
  intros Hx Hy Hr. destruct (fin_B x Hx) as (a & <- & Fa & Va), (fin_B y Hy) as (b & <- & Fb & Vb). rewrite mul_equiv.
  pose proof (Bmult_correct 53 1024 prec53 emax1024 mode_NE a b) as C. rewrite Va, Vb, rnd_RN in C.
  unfold in_f64 in Hr. rewrite Rlt_bool_true in C by exact Hr. destruct C as (C1 & C2 & _). rewrite Fa, Fb in C2.
  split; [apply B_fin, C2|]. rewrite B_fval. exact C1.
Qed.
Lemma fdiv_fin x y : fin x -> fin y -> fval y <> 0 -> in_f64 (fval x / fval y) -> fin (SFdiv 53 1024 x y) /\ fval (SFdiv 53 1024 x y) = RN (fval x / fval y).
Proof.
  intros Hx Hy H0 Hr. destruct (fin_B x Hx) as (a & <- & Fa & Va), (fin_B y Hy) as (b & <- & Fb & Vb). rewrite div_equiv.
  rewrite <- Vb in H0. pose proof (Bdiv_correct 53 1024 prec53 emax1024 mode_NE a b H0) as C. rewrite Va, Vb, rnd_RN in C.
  unfold in_f64 in Hr. rewrite Rlt_bool_true in C by exact Hr. destruct C as (C1 & C2 & _). rewrite Fa in C2.
  split; [apply B_fin, C2|]. rewrite B_fval. exact C1.
Qed.
Lemma fopp_fin x : fin x -> fin (SFopp x) /\ fval (SFopp x) = - fval x.
Proof.
  intros Hx. destruct (fin_B x Hx) as (a & <- & Fa & Va). replace (SFopp (B2SF a)) with (B2SF (Bopp a)) by (destruct a; reflexivity).
  split; [apply B_fin; rewrite is_finite_Bopp; exact Fa|]. rewrite B_fval, B2R_Bopp, Va. reflexivity.
Qed.
Lemma fabs_fin x : fin x -> fin (SFabs x) /\ fval (SFabs x) = Rabs (fval x).
Proof.
  intros Hx. destruct (fin_B x Hx) as (a & <- & Fa & Va). replace (SFabs (B2SF a)) with (B2SF (Babs a)) by (destruct a; reflexivity).
  split; [apply B_fin; rewrite is_finite_Babs; exact Fa|]. rewrite B_fval, B2R_Babs, Va. reflexivity.
Qed.
Lemma feqb_fin x y : fin x -> fin y -> SFeqb x y = Req_bool (fval x) (fval y).
Proof.
  intros Hx Hy. destruct (fin_B x Hx) as (a & <- & Fa & Va), (fin_B y Hy) as (b & <- & Fb & Vb).
  change (SFeqb (B2SF a) (B2SF b)) with (Beqb a b). rewrite Beqb_correct by auto. rewrite Va, Vb. reflexivity.
Qed.
Lemma fltb_fin x y : fin x -> fin y -> SFltb x y = Rlt_bool (fval x) (fval y).
Proof.
  intros Hx Hy. destruct (fin_B x Hx) as (a & <- & Fa & Va), (fin_B y Hy) as (b & <- & Fb & Vb).
  change (SFltb (B2SF a) (B2SF b)) with (Bltb a b). rewrite Bltb_correct by auto. rewrite Va, Vb. reflexivity.
Qed.
Lemma fleb_fin x y : fin x -> fin y -> SFleb x y = Rle_bool (fval x) (fval y).
Proof.
  intros Hx Hy. destruct (fin_B x Hx) as (a & <- & Fa & Va), (fin_B y Hy) as (b & <- & Fb & Vb).
  change (SFleb (B2SF a) (B2SF b)) with (Bleb a b). rewrite Bleb_correct by auto. rewrite Va, Vb. reflexivity.
Qed.

(** Integers up to 2^53 are exact. *)
Lemma RN_int z : (Z.abs z <= 2 ^ 53)%Z -> RN (IZR z) = IZR z.
Proof.
  intros Hz. apply round_generic; [apply valid_rnd_N|].
  destruct (Z.eq_dec (Z.abs z) (2 ^ 53)) as [E|Hn].
  - assert (G : generic_format radix2 (SpecFloat.fexp 53 1024) (bpow radix2 53)).
    { apply generic_format_bpow. cbv. discriminate. }
    destruct (Z.abs_eq_or_opp z) as [E'|E']; rewrite E' in E.
    + subst z. exact G.
    + replace z with (- 2 ^ 53)%Z by lia. rewrite opp_IZR. apply generic_format_opp. exact G.
  - apply generic_format_FLT. exists (Float radix2 z 0).
    + unfold F2R. cbn [Fnum Fexp]. cbn [bpow]. ring.
    + cbn [Fnum]. change (Zpower radix2 53) with (2 ^ 53)%Z. lia.
    + cbn [Fexp]. discriminate.
Qed.
Lemma in_f64_int z : (Z.abs z <= 2 ^ 53)%Z -> in_f64 (IZR z).
Proof.
  intros Hz. unfold in_f64. rewrite RN_int by exact Hz. rewrite <- abs_IZR. change (bpow radix2 1024) with (IZR (2 ^ 1024)).
  apply IZR_lt. eapply Z.le_lt_trans; [exact Hz|]. reflexivity.
Qed.
Lemma flit_int z : (Z.abs z <= 2 ^ 53)%Z -> fin (flit z) /\ fval (flit z) = IZR z.
Proof.
  intros Hz. unfold flit. change (SpecFloat.binary_normalize fprec femax z 0 false) with (SpecFloat.binary_normalize 53 1024 z 0 false).
  rewrite normalize_equiv.
  pose proof (binary_normalize_correct 53 1024 prec53 emax1024 mode_NE z 0 false) as C.
  cbv zeta in C.
  assert (E : F2R (Float radix2 z 0) = IZR z) by (unfold F2R; cbn [Fnum Fexp bpow]; ring). rewrite E, rnd_RN in C.
  rewrite Rlt_bool_true in C by (apply (in_f64_int z Hz)). destruct C as (C1 & C2 & _).
  split; [apply B_fin, C2|]. rewrite B_fval, C1. apply RN_int, Hz.
Qed.
