(** The operations of binary64 on all values, infinities and NaN included, and their errors. *)
From Verif Require Import Base Num Text FmtProofs FloatProofs FloatOps.
From Coq Require Import Reals Lra Lia Floats.SpecFloat.
From Flocq Require Import Core BinarySingleNaN Relative Plus_error.
Local Open Scope R_scope.
#[local] Existing Instances prec53 emax1024.

Definition vb (x : F) : Prop := valid_binary 53 1024 x = true.
Lemma vb_B x : vb x -> exists b : bf, B2SF b = x.
Proof. intros V. exists (SF2B x V). apply B2SF_SF2B. Qed.
Lemma fin_vb x : fin x -> vb x. Proof. intros [V _]. exact V. Qed.

Lemma add_vb x y : vb x -> vb y -> vb (SFadd 53 1024 x y).
Proof. intros Vx Vy. destruct (vb_B x Vx) as (a & <-), (vb_B y Vy) as (b & <-). rewrite add_equiv. apply B_valid. Qed.
Lemma sub_vb x y : vb x -> vb y -> vb (SFsub 53 1024 x y).
Proof. intros Vx Vy. destruct (vb_B x Vx) as (a & <-), (vb_B y Vy) as (b & <-). rewrite sub_equiv. apply B_valid. Qed.
Lemma mul_vb x y : vb x -> vb y -> vb (SFmul 53 1024 x y).
Proof. intros Vx Vy. destruct (vb_B x Vx) as (a & <-), (vb_B y Vy) as (b & <-). rewrite mul_equiv. apply B_valid. Qed.
Lemma div_vb x y : vb x -> vb y -> vb (SFdiv 53 1024 x y).
Proof. intros Vx Vy. destruct (vb_B x Vx) as (a & <-), (vb_B y Vy) as (b & <-). rewrite div_equiv. apply B_valid. Qed.

(** Overflow: the result is an infinity. *)
Lemma over_not_fin s : is_finite_SF (binary_overflow 53 1024 mode_NE s) = false.
Proof. reflexivity. Qed.

Lemma add_case x y : fin x -> fin y ->
  (in_f64 (fval x + fval y) /\ fin (SFadd 53 1024 x y) /\ fval (SFadd 53 1024 x y) = RN (fval x + fval y)) \/
  (~ in_f64 (fval x + fval y) /\ exists s, SFadd 53 1024 x y = S754_infinity s).
Proof.
  intros Hx Hy. destruct (Rlt_le_dec (Rabs (RN (fval x + fval y))) (bpow radix2 1024)) as [Hr|Hr].
  - left. split; [exact Hr|]. apply fadd_fin; auto.
  - right. split; [unfold in_f64; lra|]. destruct (fin_B x Hx) as (a & <- & Fa & Va), (fin_B y Hy) as (b & <- & Fb & Vb).
    rewrite add_equiv. pose proof (Bplus_correct 53 1024 _ _ mode_NE a b Fa Fb) as G. rewrite rnd_RN, Va, Vb, Rlt_bool_false in G by exact Hr.
    destruct G as [G _]. rewrite G. eauto.
Qed.
Lemma sub_case x y : fin x -> fin y ->
  (in_f64 (fval x - fval y) /\ fin (SFsub 53 1024 x y) /\ fval (SFsub 53 1024 x y) = RN (fval x - fval y)) \/
  (~ in_f64 (fval x - fval y) /\ SFsub 53 1024 x y = S754_infinity (Rlt_bool (fval x) (fval y))).
Proof.
  intros Hx Hy. destruct (Rlt_le_dec (Rabs (RN (fval x - fval y))) (bpow radix2 1024)) as [Hr|Hr].
  - left. split; [exact Hr|]. apply fsub_fin; auto.
  - right. split; [unfold in_f64; lra|]. destruct (fin_B x Hx) as (a & <- & Fa & Va), (fin_B y Hy) as (b & <- & Fb & Vb).
    rewrite sub_equiv. pose proof (Bminus_correct 53 1024 _ _ mode_NE a b Fa Fb) as G. rewrite rnd_RN, Va, Vb, Rlt_bool_false in G by exact Hr.
    destruct G as [G Gs]. rewrite G. cbn. f_equal. rewrite <- Va, <- Vb in *. clear Va Vb.
    assert (N0 : B2R a - B2R b <> 0).
    { intros E. rewrite E in Hr. unfold RN in Hr. rewrite round_0, Rabs_R0 in Hr; [|typeclasses eauto]. pose proof (bpow_gt_0 radix2 1024). lra. }
    destruct a as [sa|sa| |sa ma ea Ba], b as [sb|sb| |sb mb eb Bb]; try discriminate; cbn [B2R Bsign] in *.
    all: subst sa; destruct sb; cbn; symmetry;
      first [ apply Rlt_bool_true; apply Rlt_le_trans with 0; [apply F2R_lt_0; reflexivity|first [apply Rle_refl|apply F2R_ge_0; discriminate]]
            | apply Rlt_bool_true; apply Rle_lt_trans with 0; [apply Rle_refl|apply F2R_gt_0; reflexivity]
            | apply Rlt_bool_false; apply Rle_trans with 0; [first [apply Rle_refl|apply F2R_le_0; discriminate]|first [apply Rle_refl|apply F2R_ge_0; discriminate]]
            | exfalso; apply N0; lra ].
Qed.

(** A finite result comes from finite operands, and is the rounding of the exact result. *)
Lemma add_back x y : vb x -> vb y -> fin (SFadd 53 1024 x y) -> fin x /\ fin y /\ fval (SFadd 53 1024 x y) = RN (fval x + fval y).
Proof.
  intros Vx Vy Hf. assert (H2 : fin x /\ fin y).
  { destruct Hf as [_ Hf]. destruct x as [sx|sx| |sx mx ex], y as [sy|sy| |sy my ey]; cbn in Hf; try discriminate Hf;
      try (destruct (Bool.eqb sx sy); discriminate Hf); split; split; auto. }
  destruct H2 as [Hx Hy]. split; [exact Hx|split; [exact Hy|]]. destruct (add_case x y Hx Hy) as [(_ & _ & G)|(_ & s & G)]; [exact G|].
  exfalso. destruct Hf as [_ Hf]. rewrite G in Hf. discriminate Hf.
Qed.
Lemma mul_back x y : vb x -> vb y -> fin (SFmul 53 1024 x y) -> fin x /\ fin y /\ fval (SFmul 53 1024 x y) = RN (fval x * fval y).
Proof.
  intros Vx Vy Hf. assert (H2 : fin x /\ fin y).
  { destruct Hf as [_ Hf]. destruct x as [sx|sx| |sx mx ex], y as [sy|sy| |sy my ey]; cbn in Hf; try discriminate Hf; split; split; auto. }
  destruct H2 as [Hx Hy]. split; [exact Hx|split; [exact Hy|]].
  destruct (Rlt_le_dec (Rabs (RN (fval x * fval y))) (bpow radix2 1024)) as [Hr|Hr]; [apply fmul_fin; auto|].
  exfalso. destruct (fin_B x Hx) as (a & <- & Fa & Va), (fin_B y Hy) as (b & <- & Fb & Vb).
  rewrite mul_equiv in Hf. pose proof (Bmult_correct 53 1024 _ _ mode_NE a b) as G. rewrite rnd_RN, Va, Vb, Rlt_bool_false in G by exact Hr.
  rewrite G in Hf. destruct Hf as [_ Hf]. discriminate Hf.
Qed.
Lemma div_back x y : vb x -> fin y -> fval y <> 0 -> fin (SFdiv 53 1024 x y) -> fin x /\ fval (SFdiv 53 1024 x y) = RN (fval x / fval y).
Proof.
  intros Vx Hy Ny Hf. assert (Hx : fin x).
  { destruct Hf as [_ Hf], Hy as [Vy Hy]. destruct x as [sx|sx| |sx mx ex], y as [sy|sy| |sy my ey]; cbn in Hf, Hy; try discriminate Hf; try discriminate Hy; split; auto. }
  split; [exact Hx|].
  destruct (Rlt_le_dec (Rabs (RN (fval x / fval y))) (bpow radix2 1024)) as [Hr|Hr]; [apply fdiv_fin; auto|].
  exfalso. destruct (fin_B x Hx) as (a & <- & Fa & Va), (fin_B y Hy) as (b & <- & Fb & Vb).
  rewrite <- Vb in Ny. rewrite div_equiv in Hf. pose proof (Bdiv_correct 53 1024 _ _ mode_NE a b Ny) as G. rewrite rnd_RN, Va, Vb, Rlt_bool_false in G by exact Hr.
  rewrite G in Hf. destruct Hf as [_ Hf]. discriminate Hf.
Qed.

(** Errors. *)
Lemma fexp_flt : SpecFloat.fexp 53 1024 = FLT_exp (-1074) 53. Proof. reflexivity. Qed.
Lemma fin_format x : fin x -> generic_format radix2 (FLT_exp (-1074) 53) (fval x).
Proof. intros Hx. destruct (fin_B x Hx) as (a & <- & Fa & <-). rewrite <- fexp_flt. apply generic_format_B2R. Qed.
Lemma add_error x y : fin x -> fin y -> Rabs (RN (fval x + fval y) - (fval x + fval y)) <= / 2 * bpow radix2 (-52) * Rabs (fval x + fval y).
Proof.
  intros Hx Hy. destruct (FLT_plus_error_N_ex radix2 (-1074) 53 (fun t => negb (Z.even t)) (fval x) (fval y) (fin_format x Hx) (fin_format y Hy)) as (eps & He & G).
  assert (E : RN (fval x + fval y) = (fval x + fval y) * (1 + eps)) by exact G. rewrite E.
  replace ((fval x + fval y) * (1 + eps) - (fval x + fval y)) with (eps * (fval x + fval y)) by ring. rewrite Rabs_mult.
  apply Rmult_le_compat_r; [apply Rabs_pos|]. eapply Rle_trans; [exact He|]. unfold u_ro. change (bpow radix2 (Z.add (Z.opp 53) 1)) with (bpow radix2 (-52)).
  pose proof (bpow_gt_0 radix2 (-52)). set (b := bpow radix2 (-52)) in *. apply Rmult_le_reg_r with (1 + / 2 * b); [lra|]. unfold Rdiv. rewrite Rmult_assoc, Rinv_l by lra. nra.
Qed.
Lemma any_error v : Rabs (RN v - v) <= / 2 * bpow radix2 (-52) * Rabs v + / 2 * bpow radix2 (-1074).
Proof.
  destruct (error_N_FLT radix2 (-1074) 53 eq_refl (fun t => negb (Z.even t)) v) as (eps & eta & He & Ht & _ & G).
  assert (E : RN v = v * (1 + eps) + eta) by exact G. rewrite E.
  replace (v * (1 + eps) + eta - v) with (eps * v + eta) by ring. eapply Rle_trans; [apply Rabs_triang|]. rewrite Rabs_mult.
  apply Rplus_le_compat; [|exact Ht]. apply Rmult_le_compat_r; [apply Rabs_pos|]. exact He.
Qed.
Lemma RN_diff_zero x y : fin x -> fin y -> RN (fval x - fval y) = 0 -> fval x = fval y.
Proof.
  intros Hx Hy E. assert (G : fval x + - fval y = 0).
  { apply (round_plus_eq_0 radix2 (FLT_exp (-1074) 53) ZnearestE); [apply fin_format; exact Hx|apply generic_format_opp, fin_format; exact Hy|].
    exact E. }
  lra.
Qed.
Lemma RN_0 : RN 0 = 0. Proof. apply round_0. typeclasses eauto. Qed.
Lemma RN_le x y : x <= y -> RN x <= RN y.
Proof. apply round_le; typeclasses eauto. Qed.
Lemma fin_RN x : fin x -> RN (fval x) = fval x.
Proof. intros Hx. apply RN_valid, Hx. Qed.
Lemma RN_opp x : RN (- x) = - RN x.
Proof. apply round_NE_opp. Qed.
