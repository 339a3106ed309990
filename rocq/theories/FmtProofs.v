(** Numbers as text: [fmt_e10] and [parse_dec]. *)
From Verif Require Import Base Text TextProofs.
From Coq Require Import NArith Reals Lra Floats.SpecFloat.
Local Open Scope string_scope.
Local Open Scope list_scope.

(** Values. *)
Definition NR (n : N) : R := IZR (Z.of_N n).
Definition sgn (s : bool) (r : R) : R := if s then Ropp r else r.
(** Of a decimal numeral, and of a finite float. *)
Definition dval (s : bool) (n : N) (d : Z) : R := sgn s (NR n * powerRZ 10 d).
Definition fval (x : spec_float) : R :=
  match x with S754_finite s m e => sgn s (IZR (Z.pos m) * powerRZ 2 e) | _ => 0%R end.

Local Open Scope R_scope.
Lemma Rabs_le_inv x y : Rabs x <= y -> - y <= x <= y.
Proof. unfold Rabs. destruct (Rcase_abs x); lra. Qed.
Lemma NR_add a b : NR (a + b) = NR a + NR b.
Proof. unfold NR. rewrite N2Z.inj_add. apply plus_IZR. Qed.
Lemma NR_mul a b : NR (a * b) = NR a * NR b.
Proof. unfold NR. rewrite N2Z.inj_mul. apply mult_IZR. Qed.
Lemma NR_le a b : (a <= b)%N <-> NR a <= NR b.
Proof. unfold NR. split; [intros; apply IZR_le; lia|intros Hl; apply le_IZR in Hl; lia]. Qed.
Lemma NR_lt a b : (a < b)%N <-> NR a < NR b.
Proof. unfold NR. split; [intros; apply IZR_lt; lia|intros Hl; apply lt_IZR in Hl; lia]. Qed.
Lemma NR_inj a b : NR a = NR b -> a = b.
Proof. unfold NR. intros E. apply eq_IZR in E. lia. Qed.
Lemma NR_pow b k : NR (b ^ k) = powerRZ (NR b) (Z.of_N k).
Proof.
  unfold NR. rewrite N2Z.inj_pow. rewrite <- (Z_N_nat (Z.of_N k)) at 1 || idtac.
  generalize (N2Z.is_nonneg k). generalize (Z.of_N k). intros z Hz.
  rewrite <- (Z2Nat.id z Hz). rewrite <- pow_IZR. rewrite <- pow_powerRZ. reflexivity.
Qed.
Lemma NR_10 : NR 10 = 10.
Proof. reflexivity. Qed.
Lemma NR_nonneg n : 0 <= NR n.
Proof. unfold NR. apply IZR_le. lia. Qed.
Lemma NR_pos n : n <> 0%N -> 0 < NR n.
Proof. intros Hn. unfold NR. apply IZR_lt. lia. Qed.
Lemma p10_pos k : 0 < powerRZ 10 k.
Proof. apply powerRZ_lt. lra. Qed.
Lemma p10_add a b : powerRZ 10 (a + b) = powerRZ 10 a * powerRZ 10 b.
Proof. apply powerRZ_add. lra. Qed.
Lemma p10_opp a : powerRZ 10 (- a) = / powerRZ 10 a.
Proof. apply powerRZ_neg'. Qed.
Lemma p10_N k : powerRZ 10 (Z.of_N k) = NR (10 ^ k).
Proof. rewrite NR_pow, NR_10. reflexivity. Qed.
Lemma p10_le a b : (a <= b)%Z -> powerRZ 10 a <= powerRZ 10 b.
Proof.
  intros Hab. replace b with (a + (b - a))%Z by lia. rewrite p10_add. rewrite <- (Rmult_1_r (powerRZ 10 a)) at 1.
  apply Rmult_le_compat_l; [left; apply p10_pos|].
  replace (b - a)%Z with (Z.of_N (Z.to_N (b - a))) by lia. rewrite p10_N.
  change 1 with (NR 1). apply NR_le. pose proof (N.pow_nonzero 10 (Z.to_N (b - a)) ltac:(discriminate)). lia.
Qed.

Lemma scale10_val a b k : b <> 0%N -> let '(a', b') := scale10 a b k in
  b' <> 0%N /\ NR a' / NR b' = NR a / NR b * powerRZ 10 k.
Proof.
  intros Hb. unfold scale10. pose proof (NR_pos b Hb).
  assert (Hp : forall j, (10 ^ j <> 0)%N) by (intros; apply N.pow_nonzero; discriminate).
  destruct (Z.leb_spec 0 k) as [Hk|Hk].
  - split; [exact Hb|]. rewrite NR_mul, <- p10_N. rewrite Z2N.id by lia. field. lra.
  - split; [specialize (Hp (Z.to_N (- k))); lia|]. rewrite NR_mul, <- p10_N. rewrite Z2N.id by lia.
    rewrite p10_opp. pose proof (p10_pos k). field. lra.
Qed.
Lemma ge_pow10_val a b k : b <> 0%N -> ge_pow10 a b k = true <-> powerRZ 10 k <= NR a / NR b.
Proof.
  intros Hb. unfold ge_pow10. pose proof (scale10_val a b (- k) Hb) as S. destruct (scale10 a b (- k)) as [a' b'].
  destruct S as [Hb' E]. rewrite N.leb_le, NR_le. pose proof (NR_pos b' Hb') as P. pose proof (p10_pos k) as Pk.
  rewrite p10_opp in E.
  assert (E2 : NR a = NR a) by reflexivity.
  assert (Q : NR a / NR b = NR a' / NR b' * powerRZ 10 k). { rewrite E. field. split; [lra|]. pose proof (NR_pos b Hb). lra. }
  rewrite Q. split.
  - intros Hl. rewrite <- (Rmult_1_l (powerRZ 10 k)) at 1. apply Rmult_le_compat_r; [lra|].
    apply (Rmult_le_reg_r (NR b')); [lra|]. unfold Rdiv. rewrite Rmult_assoc, Rinv_l; lra.
  - intros Hl. assert (1 <= NR a' / NR b').
    { apply (Rmult_le_reg_r (powerRZ 10 k)); lra. }
    apply (Rmult_le_compat_r (NR b')) in H; [|lra]. unfold Rdiv in H. rewrite Rmult_assoc, Rinv_l in H; lra.
Qed.
Lemma round_half_even_val a b : b <> 0%N -> Rabs (NR (round_half_even a b) - NR a / NR b) <= / 2.
Proof.
  intros Hb. unfold round_half_even. pose proof (NR_pos b Hb) as P.
  pose proof (N.div_mod a b Hb) as D. pose proof (N.mod_upper_bound a b Hb) as U.
  set (q := (a / b)%N) in *. set (r := (a mod b)%N) in *.
  assert (E : NR a / NR b = NR q + NR r / NR b).
  { rewrite D, NR_add, NR_mul. field. lra. }
  rewrite E. pose proof (NR_nonneg r) as R0. apply NR_lt in U.
  destruct ((b <? 2 * r)%N || (2 * r =? b)%N && N.odd q) eqn:C.
  - assert (Hl : (b <= 2 * r)%N).
    { apply orb_true_iff in C as [C|C]; [apply N.ltb_lt in C; lia|]. apply andb_true_iff in C as [C _]. apply N.eqb_eq in C. lia. }
    apply NR_le in Hl. rewrite NR_mul in Hl. change (NR 2) with 2 in Hl. rewrite NR_add. change (NR 1) with 1.
    assert (A : / 2 <= NR r / NR b). { apply (Rmult_le_reg_r (NR b)); [lra|]. unfold Rdiv. rewrite Rmult_assoc, Rinv_l; lra. }
    assert (B : NR r / NR b < 1). { apply (Rmult_lt_reg_r (NR b)); [lra|]. unfold Rdiv. rewrite Rmult_assoc, Rinv_l; lra. }
    rewrite Rabs_pos_eq; lra.
  - assert (Hl : (2 * r <= b)%N). { apply orb_false_iff in C as [C _]. apply N.ltb_ge in C. lia. }
    apply NR_le in Hl. rewrite NR_mul in Hl. change (NR 2) with 2 in Hl.
    assert (A : NR r / NR b <= / 2). { apply (Rmult_le_reg_r (NR b)); [lra|]. unfold Rdiv. rewrite Rmult_assoc, Rinv_l; lra. }
    assert (B : 0 <= NR r / NR b). { apply Rmult_le_pos; [lra|]. left. apply Rinv_0_lt_compat. lra. }
    rewrite Rabs_minus_sym, Rabs_pos_eq; lra.
Qed.
Lemma round_half_even_int a b n : b <> 0%N -> NR a / NR b = NR n -> round_half_even a b = n.
Proof.
  intros Hb E. pose proof (round_half_even_val a b Hb) as V. rewrite E in V.
  assert (G : (Z.abs (Z.of_N (round_half_even a b) - Z.of_N n) < 1)%Z).
  { apply lt_IZR. rewrite abs_IZR, minus_IZR. unfold NR in V. lra. }
  lia.
Qed.

Lemma div_le_iff a b c : 0 < b -> (c <= a / b <-> c * b <= a).
Proof.
  intros Hb. split; intros Hl.
  - apply (Rmult_le_compat_r b) in Hl; [|lra]. unfold Rdiv in Hl. rewrite Rmult_assoc, Rinv_l in Hl; lra.
  - apply (Rmult_le_reg_r b); [lra|]. unfold Rdiv. rewrite Rmult_assoc, Rinv_l; lra.
Qed.
Lemma div_lt_iff a b c : 0 < b -> (a / b < c <-> a < c * b).
Proof.
  intros Hb. split; intros Hl.
  - apply (Rmult_lt_compat_r b) in Hl; [|lra]. unfold Rdiv in Hl. rewrite Rmult_assoc, Rinv_l in Hl; lra.
  - apply (Rmult_lt_reg_r b); [lra|]. unfold Rdiv. rewrite Rmult_assoc, Rinv_l; lra.
Qed.

(** The number of digits as a power of ten. *)
Lemma ndig_val n : n <> 0%N -> powerRZ 10 (Z.of_nat (ndig n) - 1) <= NR n < powerRZ 10 (Z.of_nat (ndig n)).
Proof.
  intros Hn. destruct (ndig_spec n) as [A B]. pose proof (ndig_pos n) as P.
  replace (Z.of_nat (ndig n)) with (Z.of_N (N.of_nat (ndig n))) by lia.
  split.
  - replace (Z.of_N (N.of_nat (ndig n)) - 1)%Z with (Z.of_N (N.of_nat (ndig n - 1))) by lia. rewrite p10_N. apply NR_le.
    destruct B as [B|B]; [rewrite B; cbn; lia|exact B].
  - rewrite p10_N. apply NR_lt. exact A.
Qed.

(** The exponent found by [sci_digits] before rounding. *)
Definition exp10 (a b : N) : Z :=
  let e0 := (Z.of_nat (ndig a) - Z.of_nat (ndig b))%Z in if ge_pow10 a b e0 then e0 else (e0 - 1)%Z.
Lemma exp10_val a b : a <> 0%N -> b <> 0%N -> powerRZ 10 (exp10 a b) <= NR a / NR b < powerRZ 10 (exp10 a b + 1).
Proof.
  intros Ha Hb. unfold exp10. set (e0 := (Z.of_nat (ndig a) - Z.of_nat (ndig b))%Z).
  destruct (ndig_val a Ha) as [A1 A2]. destruct (ndig_val b Hb) as [B1 B2]. pose proof (NR_pos b Hb) as P.
  assert (L : powerRZ 10 (e0 - 1) <= NR a / NR b).
  { apply div_le_iff; [exact P|]. apply Rle_trans with (powerRZ 10 (e0 - 1) * powerRZ 10 (Z.of_nat (ndig b))).
    - apply Rmult_le_compat_l; [left; apply p10_pos|lra].
    - rewrite <- p10_add. replace (e0 - 1 + Z.of_nat (ndig b))%Z with (Z.of_nat (ndig a) - 1)%Z by (unfold e0; lia). exact A1. }
  assert (U : NR a / NR b < powerRZ 10 (e0 + 1)).
  { apply div_lt_iff; [exact P|]. apply Rlt_le_trans with (powerRZ 10 (Z.of_nat (ndig a))); [exact A2|].
    apply Rle_trans with (powerRZ 10 (e0 + 1) * powerRZ 10 (Z.of_nat (ndig b) - 1)).
    - rewrite <- p10_add. apply p10_le. unfold e0. lia.
    - apply Rmult_le_compat_l; [left; apply p10_pos|lra]. }
  pose proof (ge_pow10_val a b e0 Hb) as G. destruct (ge_pow10 a b e0).
  - split; [apply G; reflexivity|exact U].
  - split; [exact L|]. replace (e0 - 1 + 1)%Z with e0 by lia. apply Rnot_le_lt. intros C. apply G in C. discriminate.
Qed.

Lemma p10_10 : powerRZ 10 10 = NR (10 ^ 10).
Proof. change 10%Z with (Z.of_N 10). apply p10_N. Qed.
Lemma p10_11 : powerRZ 10 11 = NR (10 ^ 11).
Proof. change 11%Z with (Z.of_N 11). apply p10_N. Qed.

(** The eleven digits: [n * 10 ^ (d - 10)] is the nearest such number. *)
Lemma sci_digits_val a b : a <> 0%N -> b <> 0%N -> let '(n, d) := sci_digits a b in
  (10 ^ 10 <= n < 10 ^ 11)%N /\ 
  Rabs (NR n * powerRZ 10 (d - 10) - NR a / NR b) <= / 2 * powerRZ 10 (exp10 a b - 10) /\
  (exists n0 : N, NR n * powerRZ 10 (d - 10) = NR n0 * powerRZ 10 (exp10 a b - 10) /\
     forall k, NR a / NR b = NR k * powerRZ 10 (exp10 a b - 10) -> n0 = k).
Proof.
  intros Ha Hb. unfold sci_digits. fold (exp10 a b). destruct (exp10_val a b Ha Hb) as [L U].
  set (e := exp10 a b) in *. cbv zeta. pose proof (scale10_val a b (10 - e) Hb) as S.
  destruct (scale10 a b (10 - e)) as [a' b']. destruct S as [Hb' E].
  set (r := NR a / NR b) in *. pose proof (round_half_even_val a' b' Hb') as V. rewrite E in V.
  set (n := round_half_even a' b') in *.
  assert (E1 : powerRZ 10 (10 - e) = / powerRZ 10 (e - 10)) by (rewrite <- p10_opp; f_equal; lia).
  pose proof (p10_pos (e - 10)) as P. rewrite E1 in E, V.
  assert (Q10 : powerRZ 10 10 = powerRZ 10 e * / powerRZ 10 (e - 10)) by (rewrite <- E1, <- p10_add; f_equal; lia).
  assert (Q11 : powerRZ 10 11 = powerRZ 10 (e + 1) * / powerRZ 10 (e - 10)) by (rewrite <- E1, <- p10_add; f_equal; lia).
  assert (Lr : NR (10 ^ 10) <= r * / powerRZ 10 (e - 10)).
  { rewrite <- p10_10, Q10. apply Rmult_le_compat_r; [left; apply Rinv_0_lt_compat; lra|lra]. }
  assert (Ur : r * / powerRZ 10 (e - 10) < NR (10 ^ 11)).
  { rewrite <- p10_11, Q11. apply Rmult_lt_compat_r; [apply Rinv_0_lt_compat; lra|lra]. }
  assert (Ln : (10 ^ 10 <= n)%N).
  { apply N.nlt_ge. intros C. assert (C' : (n + 1 <= 10 ^ 10)%N) by lia. apply NR_le in C'. rewrite NR_add in C'. change (NR 1) with 1 in C'.
    apply Rabs_le_inv in V. lra. }
  assert (Un : (n <= 10 ^ 11)%N).
  { apply N.nlt_ge. intros C. assert (C' : (10 ^ 11 + 1 <= n)%N) by lia. apply NR_le in C'. rewrite NR_add in C'. change (NR 1) with 1 in C'.
    apply Rabs_le_inv in V. lra. }
  assert (V2 : Rabs (NR n * powerRZ 10 (e - 10) - r) <= / 2 * powerRZ 10 (e - 10)).
  { replace (NR n * powerRZ 10 (e - 10) - r) with ((NR n - r * / powerRZ 10 (e - 10)) * powerRZ 10 (e - 10)) by (field; lra).
    rewrite Rabs_mult, (Rabs_pos_eq (powerRZ 10 (e - 10))) by lra. apply Rmult_le_compat_r; lra. }
  assert (X : forall k, r = NR k * powerRZ 10 (e - 10) -> n = k).
  { intros k Ek. apply round_half_even_int; [exact Hb'|]. rewrite E, Ek. field. lra. }
  destruct (N.eqb_spec n (10 ^ 11)) as [En|En].
  - split; [split; [reflexivity|reflexivity]|].
    assert (E2 : NR (10 ^ 10) * powerRZ 10 (e + 1 - 10) = NR n * powerRZ 10 (e - 10)).
    { rewrite En, <- p10_10, <- p10_11, <- !p10_add. f_equal. lia. }
    rewrite E2. split; [exact V2|]. exists n. auto.
  - split; [lia|]. split; [exact V2|]. exists n. auto.
Qed.
Local Close Scope R_scope.

(** ** Text of digits *)
Lemma pdigits_split j k n : pdigits (j + k) n = (pdigits j (n / 10 ^ N.of_nat k) ++ pdigits k n)%string.
Proof.
  revert n; induction k as [|k IH]; intros n.
  - rewrite Nat.add_0_r. change (10 ^ N.of_nat 0)%N with 1%N. rewrite N.div_1_r, app_nil_s. reflexivity.
  - rewrite Nat.add_succ_r. cbn [pdigits]. rewrite IH, app_assoc_s. do 2 f_equal.
    rewrite Nat2N.inj_succ, N.pow_succ_r'. rewrite N.div_div; [f_equal; lia|discriminate|apply N.pow_nonzero; discriminate].
Qed.
Lemma sci_text_eq n e : sci_text n e =
  String (digit_char (n / 10 ^ 10 mod 10)) (String "." (pdigits 10 n ++ String "e" (dec_Z e))).
Proof. unfold sci_text. change (pdigits 11 n) with (pdigits (1 + 10) n). rewrite pdigits_split. reflexivity. Qed.

Lemma parse_exp_dec z : parse_exp (String "e" (dec_Z z)) = Some z.
Proof.
  unfold parse_exp. cbn [Ascii.eqb Bool.eqb orb]. unfold dec_Z.
  assert (G : forall n, match take_digits 0 0 (dec n) with (S _, m, "") => Some m | _ => None end = Some n).
  { intros n. rewrite <- (app_nil_s (dec n)), take_digits_dec by exact I. pose proof (ndig_pos n). destruct (ndig n); [lia|reflexivity]. }
  destruct (Z.ltb_spec z 0) as [Hz|Hz].
  - cbn [append parse_sign Ascii.eqb Bool.eqb]. specialize (G (Z.abs_N z)). destruct (take_digits 0 0 (dec (Z.abs_N z))) as [[[|c] m] [|a s]]; try discriminate.
    injection G as ->. f_equal. lia.
  - cbn [append]. destruct (dec_head (Z.abs_N z)) as (d & r & Hd & E).
    assert (Ep : parse_sign (dec (Z.abs_N z)) = (false, dec (Z.abs_N z))).
    { rewrite E. unfold parse_sign. assert (H : In d [0;1;2;3;4;5;6;7;8;9]%N) by (cbn; lia).
      cbn in H. repeat destruct H as [<-|H]; try reflexivity. destruct H. }
    rewrite Ep. specialize (G (Z.abs_N z)). destruct (take_digits 0 0 (dec (Z.abs_N z))) as [[[|c] m] [|a s]]; try discriminate.
    injection G as ->. f_equal. lia.
Qed.
Lemma parse_sign_digit d s : (d < 10)%N -> parse_sign (String (digit_char d) s) = (false, String (digit_char d) s).
Proof.
  intros Hd. unfold parse_sign. assert (H : In d [0;1;2;3;4;5;6;7;8;9]%N) by (cbn; lia).
  cbn in H. repeat destruct H as [<-|H]; try reflexivity. destruct H.
Qed.
Lemma parse_sci_text s n e : (n < 10 ^ 11)%N -> parse_dec (minus_if s (sci_text n e)) = Some (s, n, (e - 10)%Z).
Proof.
  intros Hn. unfold parse_dec.
  assert (E0 : parse_sign (minus_if s (sci_text n e)) = (s, sci_text n e)).
  { destruct s; [reflexivity|]. cbn [minus_if]. rewrite sci_text_eq. apply parse_sign_digit. apply N.mod_upper_bound. discriminate. }
  rewrite E0, sci_text_eq. cbn [take_digits]. rewrite digit_val_char by (apply N.mod_upper_bound; discriminate).
  cbn [take_digits]. change (digit_val ".") with (@None N). cbn [Ascii.eqb Bool.eqb].
  rewrite take_digits_app, take_digits_stop by reflexivity. cbn [Nat.add].
  rewrite parse_exp_dec. do 3 f_equal. change (N.of_nat 10) with 10%N.
  pose proof (N.div_mod n (10 ^ 10) ltac:(discriminate)) as D. rewrite (N.mod_small (n / 10 ^ 10) 10).
  - rewrite N.mul_0_r, N.add_0_l. lia.
  - apply N.div_lt_upper_bound; [discriminate|]. exact Hn.
Qed.

(** ** Decimals of at most eleven digits *)
Local Open Scope R_scope.
Lemma multiple k j g : (k < 10 ^ 11)%N -> powerRZ 10 (g + 10) <= NR k * powerRZ 10 j ->
  exists K, NR k * powerRZ 10 j = NR K * powerRZ 10 g.
Proof.
  intros Hk Hl. assert (Hj : (g <= j)%Z).
  { destruct (Z.le_gt_cases g j) as [|C]; [assumption|exfalso].
    apply NR_lt in Hk. rewrite <- p10_11 in Hk. pose proof (p10_pos j) as P.
    assert (L : NR k * powerRZ 10 j < powerRZ 10 11 * powerRZ 10 j) by (apply Rmult_lt_compat_r; lra).
    rewrite <- p10_add in L. pose proof (p10_le (11 + j) (g + 10) ltac:(lia)). lra. }
  exists (k * 10 ^ Z.to_N (j - g))%N. rewrite NR_mul, <- p10_N, Z2N.id by lia. rewrite Rmult_assoc, <- p10_add. do 2 f_equal. lia.
Qed.

Lemma near_decimal a b k j : a <> 0%N -> b <> 0%N -> (k < 10 ^ 11)%N ->
  Rabs (NR a / NR b - NR k * powerRZ 10 j) <= / 10 ^ 13 * (NR k * powerRZ 10 j) ->
  let '(n, d) := sci_digits a b in NR n * powerRZ 10 (d - 10) = NR k * powerRZ 10 j.
Proof.
  intros Ha Hb Hk Hv. pose proof (sci_digits_val a b Ha Hb) as S. destruct (sci_digits a b) as [n d].
  destruct S as (_ & Hn & n0 & En & _). destruct (exp10_val a b Ha Hb) as [L U].
  set (r := NR a / NR b) in *. set (v := NR k * powerRZ 10 j) in *. set (e := exp10 a b) in *.
  rewrite En in *. clear En n d.
  set (u := powerRZ 10 (e - 10)) in *. pose proof (p10_pos (e - 10)) as Pu. fold u in Pu.
  assert (E0 : powerRZ 10 e = 10 ^ 10 * u).
  { unfold u. replace e with (10 + (e - 10))%Z at 1 by lia. rewrite p10_add. reflexivity. }
  assert (E1 : powerRZ 10 (e + 1) = 10 ^ 11 * u).
  { unfold u. replace (e + 1)%Z with (11 + (e - 10))%Z at 1 by lia. rewrite p10_add. reflexivity. }
  assert (E2 : powerRZ 10 (e - 11) = u / 10).
  { unfold u. replace (e - 10)%Z with (1 + (e - 11))%Z by lia. rewrite p10_add. change (powerRZ 10 1) with (10 * 1). field. }
  rewrite E0 in L. rewrite E1 in U. apply Rabs_le_inv in Hv. apply Rabs_le_inv in Hn.
  assert (Hge : powerRZ 10 e <= v).
  { destruct (Rle_or_lt (powerRZ 10 e) v) as [|C]; [assumption|exfalso].
    assert (E3 : powerRZ 10 (e - 11 + 10) = 10 ^ 9 * u).
    { replace (e - 11 + 10)%Z with (10 + (e - 11))%Z by lia. rewrite p10_add, E2. change (powerRZ 10 10) with (10 ^ 10). lra. }
    destruct (multiple k j (e - 11) Hk) as [K EK]; fold v.
    - fold v. rewrite E3. lra.
    - fold v in EK. rewrite E2 in EK. rewrite E0 in C.
      assert (HK : (K + 1 <= 10 ^ 11)%N).
      { assert (K < 10 ^ 11)%N; [|lia]. apply NR_lt. apply (Rmult_lt_reg_r (u / 10)); [lra|]. rewrite <- EK.
        change (NR (10 ^ 11)) with (IZR 100000000000). lra. }
      apply NR_le in HK. rewrite NR_add in HK. change (NR 1) with 1 in HK. change (NR (10 ^ 11)) with (IZR 100000000000) in HK.
      assert (v <= (100000000000 - 1) * (u / 10)) by (rewrite EK; apply Rmult_le_compat_r; lra).
      lra. }
  destruct (multiple k j (e - 10) Hk) as [K EK].
  { fold v. replace (e - 10 + 10)%Z with e by lia. exact Hge. }
  fold v u in EK. rewrite EK in *.
  assert (G : n0 = K); [|rewrite G; reflexivity].
  assert (B : NR K <= 11 * 10 ^ 10).
  { apply (Rmult_le_reg_r u); [lra|]. lra. }
  assert (D : - (6 / 10) <= NR n0 - NR K <= 6 / 10).
  { assert (D' : - (6 / 10) * u <= (NR n0 - NR K) * u <= (6 / 10) * u).
    { pose proof (Rmult_le_compat_r u _ _ ltac:(lra) B). lra. }
    destruct D' as [D1 D2]. split; apply (Rmult_le_reg_r u); lra. }
  assert (G : (Z.abs (Z.of_N n0 - Z.of_N K) < 1)%Z).
  { apply lt_IZR. rewrite abs_IZR, minus_IZR. unfold NR in D. apply Rabs_def1; lra. }
  lia.
Qed.

(** ** The rendered value is monotone *)
Lemma div_eq_cross a b a' b' : b <> 0%N -> b' <> 0%N -> NR a / NR b = NR a' / NR b' -> (a * b' = a' * b)%N.
Proof.
  intros Hb Hb' E. apply NR_inj. rewrite !NR_mul. pose proof (NR_pos b Hb). pose proof (NR_pos b' Hb').
  apply (f_equal (fun z => z * NR b * NR b')) in E. field_simplify in E; lra.
Qed.
Lemma rhe_value a b a' b' : b <> 0%N -> b' <> 0%N -> (a * b' = a' * b)%N -> round_half_even a b = round_half_even a' b'.
Proof.
  intros Hb Hb' E. unfold round_half_even.
  assert (Eq : (a / b = a' / b')%N).
  { rewrite <- (N.div_mul_cancel_r a b b') by assumption. rewrite <- (N.div_mul_cancel_r a' b' b) by assumption.
    rewrite E. f_equal. lia. }
  assert (Er : (a mod b * b' = a' mod b' * b)%N).
  { pose proof (N.div_mod a b Hb). pose proof (N.div_mod a' b' Hb'). rewrite <- Eq in *.
    set (q := (a / b)%N) in *. set (r := (a mod b)%N) in *. set (r' := (a' mod b')%N) in *. nia. }
  rewrite <- Eq. set (r := (a mod b)%N) in *. set (r' := (a' mod b')%N) in *.
  assert (C1 : (b <? 2 * r)%N = (b' <? 2 * r')%N).
  { apply eq_true_iff_eq. rewrite !N.ltb_lt. split; intros; nia. }
  assert (C2 : (2 * r =? b)%N = (2 * r' =? b')%N).
  { apply eq_true_iff_eq. rewrite !N.eqb_eq. split; intros; nia. }
  rewrite C1, C2. reflexivity.
Qed.
Lemma rhe_mono a b a' b' : b <> 0%N -> b' <> 0%N -> NR a / NR b <= NR a' / NR b' -> (round_half_even a b <= round_half_even a' b')%N.
Proof.
  intros Hb Hb' Hl. apply N.nlt_ge. intros C. assert (C' : (round_half_even a' b' + 1 <= round_half_even a b)%N) by lia.
  apply NR_le in C'. rewrite NR_add in C'. change (NR 1) with 1 in C'.
  pose proof (Rabs_le_inv _ _ (round_half_even_val a b Hb)). pose proof (Rabs_le_inv _ _ (round_half_even_val a' b' Hb')).
  assert (E : NR a / NR b = NR a' / NR b') by lra.
  apply (div_eq_cross _ _ _ _ Hb Hb') in E. rewrite (rhe_value _ _ _ _ Hb Hb' E) in C. lia.
Qed.
Lemma sci_digits_round a b : a <> 0%N -> b <> 0%N -> let '(n, d) := sci_digits a b in
  let '(a', b') := scale10 a b (10 - exp10 a b) in
  NR n * powerRZ 10 (d - 10) = NR (round_half_even a' b') * powerRZ 10 (exp10 a b - 10) /\
  powerRZ 10 (exp10 a b) <= NR n * powerRZ 10 (d - 10) <= powerRZ 10 (exp10 a b + 1).
Proof.
  intros Ha Hb. pose proof (sci_digits_val a b Ha Hb) as V. unfold sci_digits in *. fold (exp10 a b) in *.
  destruct (exp10_val a b Ha Hb) as [L U]. cbv zeta in *.
  set (e := exp10 a b) in *. pose proof (scale10_val a b (10 - e) Hb) as S.
  destruct (scale10 a b (10 - e)) as [a' b']. destruct S as [Hb' E].
  set (n := round_half_even a' b') in *.
  assert (P10 : powerRZ 10 e = NR (10 ^ 10) * powerRZ 10 (e - 10)) by (rewrite <- p10_10, <- p10_add; f_equal; lia).
  assert (P11 : powerRZ 10 (e + 1) = NR (10 ^ 11) * powerRZ 10 (e - 10)) by (rewrite <- p10_11, <- p10_add; f_equal; lia).
  pose proof (p10_pos (e - 10)) as P. rewrite P10, P11.
  destruct (N.eqb_spec n (10 ^ 11)) as [En|En].
  - assert (X : NR (10 ^ 10) * powerRZ 10 (e + 1 - 10) = NR n * powerRZ 10 (e - 10)).
    { rewrite En, <- p10_10, <- p10_11, <- !p10_add. f_equal. lia. }
    rewrite X. split; [reflexivity|]. rewrite En. split; [|lra]. apply Rmult_le_compat_r; [lra|]. apply NR_le. lia.
  - destruct V as ((V1 & V2) & _). split; [reflexivity|]. split; apply Rmult_le_compat_r; try lra; apply NR_le; lia.
Qed.
Lemma sci_mono a b a' b' : a <> 0%N -> b <> 0%N -> a' <> 0%N -> b' <> 0%N -> NR a / NR b <= NR a' / NR b' ->
  let '(n, d) := sci_digits a b in let '(n', d') := sci_digits a' b' in
  NR n * powerRZ 10 (d - 10) <= NR n' * powerRZ 10 (d' - 10).
Proof.
  intros Ha Hb Ha' Hb' Hl. pose proof (sci_digits_round a b Ha Hb) as S. pose proof (sci_digits_round a' b' Ha' Hb') as S'.
  destruct (sci_digits a b) as [n d]. destruct (sci_digits a' b') as [n' d'].
  pose proof (exp10_val a b Ha Hb) as [L U]. pose proof (exp10_val a' b' Ha' Hb') as [L' U'].
  pose proof (scale10_val a b (10 - exp10 a b) Hb) as X. pose proof (scale10_val a' b' (10 - exp10 a' b') Hb') as X'.
  destruct (scale10 a b (10 - exp10 a b)) as [c e]. destruct (scale10 a' b' (10 - exp10 a' b')) as [c' e'].
  destruct X as [X0 X]. destruct X' as [X0' X']. destruct S as [S [S1 S2]]. destruct S' as [S' [S1' S2']].
  assert (He : (exp10 a b <= exp10 a' b')%Z).
  { destruct (Z.le_gt_cases (exp10 a b) (exp10 a' b')) as [|C]; [assumption|exfalso].
    pose proof (p10_le (exp10 a' b' + 1) (exp10 a b) ltac:(lia)). lra. }
  destruct (Z.eq_dec (exp10 a b) (exp10 a' b')) as [Ee|Ne].
  - rewrite S, S', Ee. apply Rmult_le_compat_r; [left; apply p10_pos|]. apply NR_le. apply rhe_mono; auto.
    rewrite X, X', Ee. apply Rmult_le_compat_r; [left; apply p10_pos|exact Hl].
  - pose proof (p10_le (exp10 a b + 1) (exp10 a' b') ltac:(lia)). lra.
Qed.
