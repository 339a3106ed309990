(** [round_dec] rounds correctly; a decimal numeral of at most eleven digits
    survives the way through a float. *)
From Verif Require Import Base Text TextProofs FmtProofs.
From Coq Require Import NArith Reals Lra Floats.SpecFloat.
From Flocq Require Import Core BinarySingleNaN Relative.
Local Open Scope R_scope.

Lemma prec53 : Prec_gt_0 53. Proof. reflexivity. Qed.
Lemma emax1024 : Prec_lt_emax 53 1024. Proof. reflexivity. Qed.
#[local] Existing Instance prec53.
#[local] Existing Instance emax1024.
(** Rounding to binary64. *)
Definition RN (r : R) : R := round radix2 (SpecFloat.fexp 53 1024) ZnearestE r.
Definition in_f64 (r : R) : Prop := Rabs (RN r) < bpow radix2 1024.

Lemma bpow2 e : bpow radix2 e = powerRZ 2 e.
Proof. rewrite bpow_powerRZ. reflexivity. Qed.
Lemma SF2R_fval x : SF2R radix2 x = fval x.
Proof.
  destruct x as [| | |s m e]; try reflexivity. cbn [SF2R fval]. unfold F2R. cbn [Fnum Fexp]. rewrite bpow2.
  destruct s; cbn [cond_Zopp sgn]; [|reflexivity]. rewrite opp_IZR. ring.
Qed.

Lemma nearest_even_equiv s m l : round_nearest_even m l = choice_mode mode_NE s m l.
Proof. case l; [reflexivity|intro c]. case c; [|reflexivity..]. now simpl; unfold Round.cond_incr; case Z.even. Qed.
Lemma round_aux_equiv sx mx ex lx :
  SpecFloat.binary_round_aux 53 1024 sx mx ex lx = binary_round_aux 53 1024 mode_NE sx mx ex lx.
Proof.
  unfold SpecFloat.binary_round_aux, binary_round_aux.
  set (mrse' := shr_fexp _ _ _). case mrse'; intros mrs' e'; simpl. now rewrite (nearest_even_equiv sx).
Qed.
Lemma round_equiv s m e : SpecFloat.binary_round 53 1024 s m e = binary_round 53 1024 mode_NE s m e.
Proof.
  unfold SpecFloat.binary_round, binary_round, shl_align_fexp.
  set (mez := shl_align _ _ _); case mez as [mz ez]. apply round_aux_equiv.
Qed.

(** What a correct rounding of [v] with sign [s] gives. *)
Definition rounded (s : bool) (v : R) (y : spec_float) : Prop :=
  valid_binary 53 1024 y = true /\
  (in_f64 v -> fval y = RN v /\ is_finite_SF y = true /\ sign_SF y = s) /\
  (~ in_f64 v -> y = S754_infinity s).
Lemma rounded_intro s v y :
  valid_binary 53 1024 y = true /\
  (if Rlt_bool (Rabs (round radix2 (SpecFloat.fexp 53 1024) (round_mode mode_NE) v)) (bpow radix2 1024) then
     SF2R radix2 y = round radix2 (SpecFloat.fexp 53 1024) (round_mode mode_NE) v /\ is_finite_SF y = true /\ sign_SF y = s
   else y = binary_overflow 53 1024 mode_NE s) -> rounded s v y.
Proof.
  intros [V C]. split; [exact V|]. unfold in_f64. change (round_mode mode_NE) with ZnearestE in C. fold (RN v) in C.
  destruct (Rlt_bool_spec (Rabs (RN v)) (bpow radix2 1024)) as [Hl|Hl].
  - split; [|intros C'; contradiction]. intros _. rewrite SF2R_fval in C. exact C.
  - split; [intros C'; lra|]. intros _. exact C.
Qed.

Lemma F2R_int b m : F2R (Float radix2 (cond_Zopp b m) 0) = sgn b (IZR m).
Proof. unfold F2R. cbn [Fnum Fexp]. change (bpow radix2 0) with 1. rewrite Rmult_1_r. destruct b; cbn; [apply opp_IZR|reflexivity]. Qed.

Lemma round_dec_correct s p d : rounded s (dval s (Npos p) d) (round_dec s (Npos p) d).
Proof.
  unfold round_dec. destruct (Z.leb_spec 0 d) as [Hd|Hd].
  - assert (Hq : (0 < Z.pos p * 10 ^ d)%Z) by (apply Z.mul_pos_pos; [lia|apply Z.pow_pos_nonneg; lia]).
    destruct (Z.pos p * 10 ^ d)%Z as [|q|q] eqn:Eq; try lia.
    assert (Ev : dval s (Npos p) d = F2R (Float radix2 (cond_Zopp s (Z.pos q)) 0)).
    { rewrite F2R_int. unfold dval. f_equal. rewrite <- Eq, mult_IZR. unfold NR. cbn [Z.of_N]. f_equal.
      rewrite <- (Z2N.id d Hd) at 1. rewrite p10_N. unfold NR. rewrite N2Z.inj_pow, Z2N.id by lia. reflexivity. }
    assert (En : SpecFloat.binary_normalize 53 1024 (cond_Zopp s (Z.pos q)) 0 s = binary_round 53 1024 mode_NE s q 0).
    { rewrite <- round_equiv. destruct s; reflexivity. }
    rewrite En, Ev. apply rounded_intro. pose proof (binary_round_correct 53 1024 _ _ mode_NE s q 0) as C. exact C.
  - assert (Hq : (0 < 10 ^ (- d))%Z) by (apply Z.pow_pos_nonneg; lia).
    destruct (10 ^ (- d))%Z as [|q|q] eqn:Eq; try lia.
    assert (Ev : dval s (Npos p) d = F2R (Float radix2 (cond_Zopp s (Z.pos p)) 0) / F2R (Float radix2 (cond_Zopp false (Z.pos q)) 0)).
    { rewrite !F2R_int. cbn [sgn]. unfold dval. assert (E : powerRZ 10 d = / IZR (Z.pos q)).
      { rewrite <- Eq. replace d with (- - d)%Z at 1 by lia. rewrite p10_opp. f_equal.
        assert (Hd' : (0 <= - d)%Z) by lia. rewrite <- (Z2N.id (- d) Hd') at 1. rewrite p10_N. unfold NR. rewrite N2Z.inj_pow, Z2N.id by lia. reflexivity. }
      rewrite E. unfold NR. cbn [Z.of_N]. destruct s; cbn [sgn]; unfold Rdiv; ring. }
    rewrite Ev. apply rounded_intro. pose proof (Bdiv_correct_aux 53 1024 _ _ mode_NE s p 0 false q 0) as C. cbv zeta in C.
    rewrite xorb_false_r in C. cbn [SFdiv]. rewrite xorb_false_r.
    destruct (SFdiv_core_binary 53 1024 (Z.pos p) 0 (Z.pos q) 0) as [[mz ez] lz]. rewrite round_aux_equiv. exact C.
Qed.

(** A float is its own rounding. *)
Lemma RN_valid x : valid_binary 53 1024 x = true -> RN (fval x) = fval x.
Proof.
  intros V. rewrite <- SF2R_fval. unfold RN. apply round_generic; [apply valid_rnd_N|].
  rewrite <- (B2R_SF2B 53 1024 x V). apply generic_format_B2R.
Qed.
Lemma fval_in_f64 x : valid_binary 53 1024 x = true -> in_f64 (fval x).
Proof.
  intros V. unfold in_f64. rewrite (RN_valid x V), <- SF2R_fval, <- (B2R_SF2B 53 1024 x V). apply abs_B2R_lt_emax.
Qed.
(** Finite floats of equal value and sign are equal. *)
Lemma fval_inj x y : valid_binary 53 1024 x = true -> valid_binary 53 1024 y = true ->
  is_finite_SF x = true -> is_finite_SF y = true -> fval x = fval y -> sign_SF x = sign_SF y -> x = y.
Proof.
  intros Vx Vy Fx Fy E S. rewrite <- (B2SF_SF2B 53 1024 x Vx), <- (B2SF_SF2B 53 1024 y Vy). f_equal.
  apply B2R_Bsign_inj.
  - rewrite is_finite_SF2B. exact Fx.
  - rewrite is_finite_SF2B. exact Fy.
  - rewrite !B2R_SF2B, !SF2R_fval. exact E.
  - rewrite !Bsign_SF2B. exact S.
Qed.
(** Relative error of rounding in the normal range. *)
Lemma RN_error v : bpow radix2 (-1022) <= Rabs v -> Rabs (RN v - v) <= / 2 * bpow radix2 (-52) * Rabs v.
Proof.
  intros Hv. pose proof (relative_error_N_FLT radix2 (-1074) 53 prec53 (fun x => negb (Z.even x)) v) as E.
  cbn [Z.add Z.opp Z.sub Z.pos_sub Pos.pred_double Pos.add] in E. apply E. exact Hv.
Qed.
