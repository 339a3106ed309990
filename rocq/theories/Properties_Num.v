(** C44: numbers in LP files. *)
From Verif Require Import Base Text TextProofs FmtProofs FloatProofs.
From Coq Require Import NArith Reals Lra Floats.SpecFloat.
From Flocq Require Import Core BinarySingleNaN.
Local Open Scope R_scope.

#[local] Instance vexp : Valid_exp (SpecFloat.fexp 53 1024) := fexp_correct 53 1024 prec53.
Lemma p2_pos e : 0 < powerRZ 2 e.
Proof. apply powerRZ_lt. lra. Qed.
Lemma p2_N k : powerRZ 2 (Z.of_N k) = NR (2 ^ k).
Proof. rewrite NR_pow. reflexivity. Qed.
Lemma ratio_val m e : let '(a, b) := ratio m e in a <> 0%N /\ b <> 0%N /\ NR a / NR b = IZR (Z.pos m) * powerRZ 2 e.
Proof.
  unfold ratio. assert (Hp : forall j, (2 ^ j <> 0)%N) by (intros; apply N.pow_nonzero; discriminate).
  destruct (Z.leb_spec 0 e) as [He|He].
  - split; [specialize (Hp (Z.to_N e)); lia|]. split; [discriminate|]. rewrite NR_mul, <- p2_N, Z2N.id by lia.
    change (NR 1) with 1. unfold NR. cbn [Z.of_N]. field.
  - split; [discriminate|]. split; [apply Hp|]. rewrite <- p2_N, Z2N.id by lia. unfold NR. cbn [Z.of_N].
    rewrite powerRZ_neg'. pose proof (p2_pos e). field. lra.
Qed.

(** The text denotes a numeral of eleven digits. *)
Lemma fmt_parse s m e : let '(a, b) := ratio m e in let '(n, d) := sci_digits a b in
  parse_dec (fmt_e10 (S754_finite s m e)) = Some (s, n, (d - 10)%Z) /\ (10 ^ 10 <= n < 10 ^ 11)%N.
Proof.
  cbn [fmt_e10]. pose proof (ratio_val m e) as R. destruct (ratio m e) as [a b]. destruct R as (Ha & Hb & _).
  pose proof (sci_digits_val a b Ha Hb) as V. destruct (sci_digits a b) as [n d]. destruct V as ((V1 & V2) & _).
  split; [apply parse_sci_text; exact V2|auto].
Qed.
Lemma sgn_abs s r : 0 <= r -> Rabs (sgn s r) = r.
Proof. intros Hr. destruct s; cbn; [rewrite Rabs_Ropp|]; apply Rabs_pos_eq; exact Hr. Qed.
Lemma sgn_minus s a b : sgn s a - sgn s b = sgn s (a - b).
Proof. destruct s; cbn; ring. Qed.
Lemma sgn_abs' s r : Rabs (sgn s r) = Rabs r.
Proof. destruct s; cbn; [apply Rabs_Ropp|reflexivity]. Qed.
Lemma dval_abs s n d : Rabs (dval s n d) = NR n * powerRZ 10 d.
Proof. apply sgn_abs. apply Rmult_le_pos; [apply NR_nonneg|left; apply p10_pos]. Qed.

(** Writing: the numeral is within relative error 5e-11 of the float. *)
Theorem C44_precision s m e : exists n d,
  parse_dec (fmt_e10 (S754_finite s m e)) = Some (s, n, d) /\
  Rabs (dval s n d - fval (S754_finite s m e)) <= 5 / 10 ^ 11 * Rabs (fval (S754_finite s m e)).
Proof.
  pose proof (fmt_parse s m e) as P. pose proof (ratio_val m e) as R. destruct (ratio m e) as [a b]. destruct R as (Ha & Hb & R).
  pose proof (sci_digits_val a b Ha Hb) as V. destruct (sci_digits a b) as [n d]. destruct P as [P _]. destruct V as (_ & V & _).
  exists n, (d - 10)%Z. split; [exact P|]. cbn [fval]. unfold dval. rewrite sgn_minus, !sgn_abs', <- R.
  destruct (exp10_val a b Ha Hb) as [L _].
  assert (Hr : 0 <= NR a / NR b) by (pose proof (p10_pos (exp10 a b)); lra). rewrite (Rabs_pos_eq (NR a / NR b) Hr).
  eapply Rle_trans; [exact V|]. replace (exp10 a b - 10)%Z with (exp10 a b + - (10))%Z by lia. rewrite p10_add.
  change (powerRZ 10 (- (10))) with (/ (10 ^ 10)). lra.
Qed.
Theorem C44_zero s : parse_dec (fmt_e10 (S754_zero s)) = Some (s, 0%N, (-10)%Z) /\ parse_f64 (fmt_e10 (S754_zero s)) = Some (S754_zero s).
Proof. destruct s; vm_compute; auto. Qed.
(** It is exact when the value has at most eleven significant digits, and more
    generally it is that numeral when the float is very near to it. *)
Lemma near_text s m e k j : (k < 10 ^ 11)%N ->
  Rabs (fval (S754_finite s m e) - dval s k j) <= / 10 ^ 13 * Rabs (dval s k j) ->
  exists n d, parse_dec (fmt_e10 (S754_finite s m e)) = Some (s, n, d) /\ n <> 0%N /\ dval s n d = dval s k j.
Proof.
  intros Hk Hv. pose proof (fmt_parse s m e) as P. pose proof (ratio_val m e) as R. destruct (ratio m e) as [a b]. destruct R as (Ha & Hb & R).
  rewrite dval_abs in Hv. cbn [fval] in Hv. unfold dval in Hv. rewrite sgn_minus, sgn_abs', <- R in Hv.
  pose proof (near_decimal a b k j Ha Hb Hk Hv) as N. destruct (sci_digits a b) as [n d]. destruct P as [P [P1 P2]].
  exists n, (d - 10)%Z. split; [exact P|]. split; [lia|]. unfold dval. rewrite N. reflexivity.
Qed.
Theorem C44_exact s m e k j : (k < 10 ^ 11)%N -> Rabs (fval (S754_finite s m e)) = NR k * powerRZ 10 j ->
  exists n d, parse_dec (fmt_e10 (S754_finite s m e)) = Some (s, n, d) /\ dval s n d = fval (S754_finite s m e).
Proof.
  intros Hk Hv. cbn [fval] in Hv. pose proof (p2_pos e) as P. assert (Hm : 0 < IZR (Z.pos m)) by (apply IZR_lt; lia).
  assert (E : fval (S754_finite s m e) = dval s k j).
  { cbn [fval]. unfold dval. rewrite sgn_abs in Hv by (apply Rmult_le_pos; lra). rewrite Hv. reflexivity. }
  destruct (near_text s m e k j Hk) as (n & d & Ep & _ & En).
  - rewrite E, Rminus_eq_0, Rabs_R0. apply Rmult_le_pos; [|apply Rabs_pos]. left. apply Rinv_0_lt_compat. lra.
  - exists n, d. rewrite E. auto.
Qed.

(** Reading: parsing the text as f64 rounds the numeral correctly; the result is
    within relative error 1e-10 of the original for every finite float below the
    top of the range. *)
Lemma parse_f64_dec t s n d : parse_dec t = Some (s, n, d) -> parse_f64 t = Some (round_dec s n d).
Proof. intros E. unfold parse_f64. rewrite E. reflexivity. Qed.
Lemma mono_RN a b : a <= b -> RN a <= RN b.
Proof. intros Hab. unfold RN. apply round_le; [|apply valid_rnd_N|exact Hab]. apply (fexp_correct 53 1024). exact prec53. Qed.
Lemma RN_opp a : RN (- a) = - RN a.
Proof. unfold RN. apply round_NE_opp. Qed.
Lemma RN_abs a : Rabs (RN a) = RN (Rabs a).
Proof.
  destruct (Rle_or_lt 0 a) as [Ha|Ha].
  - rewrite (Rabs_pos_eq a Ha). apply Rabs_pos_eq. rewrite <- (round_0 radix2 (SpecFloat.fexp 53 1024) ZnearestE). apply mono_RN. exact Ha.
  - rewrite (Rabs_left a Ha), RN_opp. apply Rabs_left1. rewrite <- (round_0 radix2 (SpecFloat.fexp 53 1024) ZnearestE). apply mono_RN. lra.
Qed.
Lemma RN_nearest v g : RN g = g -> Rabs (RN v - v) <= Rabs (g - v).
Proof.
  intros Hg. unfold RN in *.
  destruct (round_N_pt radix2 (SpecFloat.fexp 53 1024) (fun x => negb (Z.even x)) v) as [_ N]. apply N.
  rewrite <- Hg. apply generic_format_round; [|apply valid_rnd_N]. apply (fexp_correct 53 1024). exact prec53.
Qed.
Theorem C44_read_back s m e : valid_binary 53 1024 (S754_finite s m e) = true ->
  Rabs (fval (S754_finite s m e)) < (1 - / 10 ^ 10) * powerRZ 2 1024 ->
  exists y, parse_f64 (fmt_e10 (S754_finite s m e)) = Some y /\
    is_finite_SF y = true /\ valid_binary 53 1024 y = true /\ sign_SF y = s /\
    Rabs (fval y - fval (S754_finite s m e)) <= / 10 ^ 10 * Rabs (fval (S754_finite s m e)).
Proof.
  intros V Hx. destruct (C44_precision s m e) as (n & d & Ep & Er). set (x := S754_finite s m e) in *. set (v := dval s n d) in *.
  assert (Hn : n <> 0%N).
  { intros ->. pose proof (fmt_parse s m e) as P. fold x in P. destruct (ratio m e) as [a b]. destruct (sci_digits a b) as [n' d'].
    destruct P as [P [P1 P2]]. rewrite P in Ep. injection Ep as -> _. lia. }
  destruct n as [|p]; [congruence|]. exists (round_dec s (N.pos p) d). split; [apply parse_f64_dec; exact Ep|].
  destruct (round_dec_correct s p d) as (W & C & _). fold v in C.
  apply Rabs_le_inv in Er.
  assert (Hv : Rabs v <= (1 + 5 / 10 ^ 11) * Rabs (fval x)).
  { replace v with ((v - fval x) + fval x) by ring. eapply Rle_trans; [apply Rabs_triang|].
    assert (Rabs (v - fval x) <= 5 / 10 ^ 11 * Rabs (fval x)) by (apply Rabs_le; lra). lra. }
  assert (Hin : in_f64 v).
  { unfold in_f64. rewrite RN_abs. rewrite bpow2.
    set (g := (1 - / 2 ^ 20) * powerRZ 2 1024).
    assert (Pg : 0 < powerRZ 2 1024) by apply p2_pos.
    (* a float between *)
    set (t := (1 - / 2 ^ 53) * powerRZ 2 1024).
    assert (Ht : RN t = t).
    { assert (Vt : valid_binary 53 1024 (S754_finite false 9007199254740991 971) = true) by reflexivity.
      assert (Et : t = fval (S754_finite false 9007199254740991 971)).
      { unfold t, fval, sgn. replace 1024%Z with (53 + 971)%Z by lia. rewrite powerRZ_add by lra.
        change (powerRZ 2 53) with (2 ^ 53). lra. }
      rewrite Et. apply RN_valid. exact Vt. }
    apply Rle_lt_trans with t.
    - rewrite <- Ht. apply mono_RN. unfold t. eapply Rle_trans; [exact Hv|]. lra.
    - unfold t. lra. }
  destruct (C Hin) as (C1 & C2 & C3). repeat split; auto. rewrite C1.
  pose proof (RN_nearest v (fval x) (RN_valid x V)) as N.
  replace (RN v - fval x) with ((RN v - v) + (v - fval x)) by ring. eapply Rle_trans; [apply Rabs_triang|].
  rewrite (Rabs_minus_sym (fval x) v) in N.
  assert (Rabs (v - fval x) <= 5 / 10 ^ 11 * Rabs (fval x)) by (apply Rabs_le; lra). lra.
Qed.

(** A float that is the nearest one to a numeral of at most eleven digits (in the
    normal range) is read back unchanged. *)
Theorem C44_round_trip t x s k j : parse_dec t = Some (s, k, j) -> parse_f64 t = Some x ->
  (k < 10 ^ 11)%N -> k <> 0%N -> powerRZ 2 (-1022) <= Rabs (dval s k j) -> Rabs (dval s k j) <= powerRZ 2 1023 ->
  parse_f64 (fmt_e10 x) = Some x.
Proof.
  intros Et Ex Hk Hk0 Hl Hu. rewrite (parse_f64_dec _ _ _ _ Et) in Ex. injection Ex as <-.
  destruct k as [|p]; [congruence|]. set (v := dval s (N.pos p) j) in *.
  destruct (round_dec_correct s p j) as (V & C & _). fold v in C.
  assert (Hin : in_f64 v).
  { unfold in_f64. rewrite RN_abs, bpow2. apply Rle_lt_trans with (powerRZ 2 1023).
    - assert (E : RN (powerRZ 2 1023) = powerRZ 2 1023).
      { assert (Vt : valid_binary 53 1024 (S754_finite false 4503599627370496 971) = true) by reflexivity.
        assert (E : powerRZ 2 1023 = fval (S754_finite false 4503599627370496 971)).
        { unfold fval, sgn. replace 1023%Z with (52 + 971)%Z by lia. rewrite powerRZ_add by lra. change (powerRZ 2 52) with (2 ^ 52). lra. }
        rewrite E. apply RN_valid. exact Vt. }
      rewrite <- E. apply mono_RN. exact Hu.
    - replace 1024%Z with (1 + 1023)%Z by lia. rewrite powerRZ_add by lra. change (powerRZ 2 1) with (2 * 1). pose proof (p2_pos 1023). lra. }
  destruct (C Hin) as (C1 & C2 & C3). pose proof (RN_error v) as E. rewrite bpow2 in E. specialize (E Hl).
  rewrite bpow2 in E. change (powerRZ 2 (-52)) with (/ (2 ^ 52)) in E.
  assert (Hv0 : v <> 0). { intros Z. rewrite Z, Rabs_R0 in Hl. pose proof (p2_pos (-1022)). lra. }
  pose proof (Rabs_pos v) as Pv.
  destruct (round_dec s (N.pos p) j) as [z|z| |z m e] eqn:Ed.
  - exfalso. cbn in C1. rewrite <- C1 in E. rewrite Rminus_0_l, Rabs_Ropp in E. pose proof (Rabs_pos_lt v Hv0). lra.
  - discriminate.
  - discriminate.
  - cbn in C3. subst z. destruct (near_text s m e (N.pos p) j Hk) as (n & d & Ep & Hn & En).
    + fold v. rewrite C1. eapply Rle_trans; [exact E|]. lra.
    + rewrite (parse_f64_dec _ _ _ _ Ep). f_equal. destruct n as [|q]; [congruence|].
      destruct (round_dec_correct s q d) as (V' & C' & _). rewrite En in C'. fold v in C'. destruct (C' Hin) as (D1 & D2 & D3).
      apply fval_inj; auto; congruence.
Qed.
Example C44_round_trip_example : map (fun t => match parse_f64 t with Some x => Some (fmt_e10 x) | None => None end)
  ["0.1"; "-123.456"; "1e-300"; "99999999999"; "100000000001"]%string =
  [Some "1.0000000000e-1"; Some "-1.2345600000e2"; Some "1.0000000000e-300"; Some "9.9999999999e10"; Some "1.0000000000e11"]%string.
Proof. vm_compute. reflexivity. Qed.
(** Above eleven digits the value changes; and at the top of the range the text
    of a finite float reads as infinity. *)
Theorem C44_top_refuted : exists x, valid_binary 53 1024 x = true /\ is_finite_SF x = true /\
  parse_f64 (fmt_e10 x) = Some (S754_infinity false).
Proof. exists (S754_finite false 9007199254740991 971). vm_compute. auto. Qed.
Theorem C44_lossy : exists x y, valid_binary 53 1024 x = true /\ parse_f64 "100000000001" = Some x /\
  parse_f64 (fmt_e10 x) = Some y /\ parse_f64 "100000000000" = Some y /\ x <> y.
Proof.
  eexists. eexists. split; [|split; [vm_compute; reflexivity|split; [vm_compute; reflexivity|split; [vm_compute; reflexivity|discriminate]]]].
  reflexivity.
Qed.

(** Order is kept: a bound below another is not written above it. *)
Definition finite_or_zero (x : spec_float) : Prop := match x with S754_finite _ _ _ | S754_zero _ => True | _ => False end.
Theorem C44_order x y sx nx dx sy ny dy : finite_or_zero x -> finite_or_zero y -> fval x <= fval y ->
  parse_dec (fmt_e10 x) = Some (sx, nx, dx) -> parse_dec (fmt_e10 y) = Some (sy, ny, dy) ->
  dval sx nx dx <= dval sy ny dy.
Proof.
  intros Fx Fy Hl Ex Ey.
  assert (Z : forall z sz nz dz, finite_or_zero z -> parse_dec (fmt_e10 z) = Some (sz, nz, dz) ->
    (0 <= fval z -> 0 <= dval sz nz dz) /\ (fval z <= 0 -> dval sz nz dz <= 0)).
  { intros z sz nz dz Fz Ez. destruct z as [s| | |s m e]; try contradiction.
    - rewrite (proj1 (C44_zero s)) in Ez. injection Ez as <- <- <-. unfold dval. change (NR 0) with 0. rewrite Rmult_0_l. destruct s; cbn; lra.
    - pose proof (fmt_parse s m e) as P. destruct (ratio m e) as [a b]. destruct (sci_digits a b) as [n d]. destruct P as [P _].
      rewrite P in Ez. injection Ez as <- <- <-. cbn [fval]. unfold dval. pose proof (NR_nonneg n). pose proof (p10_pos (d - 10)).
      pose proof (p2_pos e). assert (0 < IZR (Z.pos m)) by (apply IZR_lt; lia).
      assert (0 <= NR n * powerRZ 10 (d - 10)) by (apply Rmult_le_pos; lra).
      assert (0 < IZR (Z.pos m) * powerRZ 2 e) by (apply Rmult_lt_0_compat; lra).
      destruct s; cbn [sgn]; lra. }
  destruct (Z x _ _ _ Fx Ex) as [X1 X2]. destruct (Z y _ _ _ Fy Ey) as [Y1 Y2].
  destruct (Rle_or_lt (fval x) 0) as [Hx|Hx].
  - destruct (Rle_or_lt 0 (fval y)) as [Hy|Hy]; [specialize (X2 Hx); specialize (Y1 Hy); lra|].
    (* both negative *)
    destruct x as [s| | |s m e]; try contradiction; [cbn in Hl; lra|]. destruct y as [s'| | |s' m' e']; try contradiction; [cbn in Hy; lra|].
    pose proof (fmt_parse s m e) as P. pose proof (fmt_parse s' m' e') as P'. pose proof (ratio_val m e) as R. pose proof (ratio_val m' e') as R'.
    destruct (ratio m e) as [a b]. destruct (ratio m' e') as [a' b']. destruct R as (Ha & Hb & R). destruct R' as (Ha' & Hb' & R').
    cbn [fval] in *. rewrite <- R in *. rewrite <- R' in *.
    assert (Q : 0 < NR a / NR b) by (apply Rdiv_lt_0_compat; apply NR_pos; assumption).
    assert (Q' : 0 < NR a' / NR b') by (apply Rdiv_lt_0_compat; apply NR_pos; assumption).
    destruct s; cbn [sgn] in *; [|lra]. destruct s'; cbn [sgn] in *; [|lra].
    pose proof (sci_mono a' b' a b Ha' Hb' Ha Hb ltac:(lra)) as M.
    destruct (sci_digits a b) as [n d]. destruct (sci_digits a' b') as [n' d']. destruct P as [P _]. destruct P' as [P' _].
    rewrite P in Ex. rewrite P' in Ey. injection Ex as <- <- <-. injection Ey as <- <- <-. unfold dval. cbn [sgn]. lra.
  - destruct x as [s| | |s m e]; try contradiction; [cbn in Hx; lra|]. destruct y as [s'| | |s' m' e']; try contradiction; [cbn in Hl, Hx; lra|].
    pose proof (fmt_parse s m e) as P. pose proof (fmt_parse s' m' e') as P'. pose proof (ratio_val m e) as R. pose proof (ratio_val m' e') as R'.
    destruct (ratio m e) as [a b]. destruct (ratio m' e') as [a' b']. destruct R as (Ha & Hb & R). destruct R' as (Ha' & Hb' & R').
    cbn [fval] in *. rewrite <- R in *. rewrite <- R' in *.
    assert (Q : 0 < NR a / NR b) by (apply Rdiv_lt_0_compat; apply NR_pos; assumption).
    assert (Q' : 0 < NR a' / NR b') by (apply Rdiv_lt_0_compat; apply NR_pos; assumption).
    destruct s; cbn [sgn] in *; [lra|]. destruct s'; cbn [sgn] in *; [lra|].
    pose proof (sci_mono a b a' b' Ha Hb Ha' Hb' ltac:(lra)) as M.
    destruct (sci_digits a b) as [n d]. destruct (sci_digits a' b') as [n' d']. destruct P as [P _]. destruct P' as [P' _].
    rewrite P in Ex. rewrite P' in Ey. injection Ex as <- <- <-. injection Ey as <- <- <-. unfold dval. cbn [sgn]. lra.
Qed.
