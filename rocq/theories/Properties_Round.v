(** Properties C65, C66: violations and rounding errors in binary64. *)
From Verif Require Import Base Num Node NodeInd Constraint ExprSpec EvalProofs Api TextSpec ExactSpec RoundSpec ConstrSpec FmtProofs FloatProofs FloatOps RoundOps RoundProofs Properties_Text Properties_Exact.
From Coq Require Import Reals Lra Lia Floats.SpecFloat.
From Flocq Require Import Core BinarySingleNaN.
Import RoundSpec.
Local Open Scope R_scope.

(** ** C65 Violations *)
Lemma finite_fin v : finite64 v <-> fin v.
Proof. unfold finite64, fin, f64. destruct v; cbn; tauto. Qed.
Lemma fl0 : flit 0 = S754_zero false. Proof. reflexivity. Qed.
(** A finite value, by its sign. *)
Lemma fin_sign x : fin x -> (is_zero x /\ fval x = 0) \/ (exists m e, x = S754_finite false m e /\ 0 < fval x) \/ (exists m e, x = S754_finite true m e /\ fval x < 0).
Proof.
  intros [_ Hf]. destruct x as [s|s| |s m e]; try discriminate Hf.
  - left. split; [exists s; reflexivity|reflexivity].
  - right. assert (0 < IZR (Z.pos m) * powerRZ 2 e) by (apply Rmult_lt_0_compat; [apply IZR_lt; lia|apply powerRZ_lt; lra]).
    destruct s; [right|left]; exists m, e; cbn; split; auto; lra.
Qed.
Lemma max0_pos x : fin x -> 0 < fval x -> fmax (flit 0) x = x.
Proof.
  intros Hx Hp. rewrite fl0. destruct (fin_sign x Hx) as [[(s & ->) V]|[(m & e & -> & V)|(m & e & -> & V)]]; try lra. reflexivity.
Qed.
Lemma max0_neg x : fin x -> fval x <= 0 -> is_zero (fmax (flit 0) x).
Proof.
  intros Hx Hp. rewrite fl0. destruct (fin_sign x Hx) as [[(s & ->) V]|[(m & e & -> & V)|(m & e & -> & V)]]; try lra; exists false; reflexivity.
Qed.
Lemma pos_nonneg x : fin x -> 0 < fval x -> nonnegative x /\ ~ is_zero x.
Proof.
  intros Hx Hp. destruct (fin_sign x Hx) as [[(s & ->) V]|[(m & e & -> & V)|(m & e & -> & V)]]; try lra. split; [exact I|]. intros (s & Q). discriminate Q.
Qed.
Lemma zero_nonneg x : is_zero x -> nonnegative x. Proof. intros (s & ->). exact I. Qed.
Lemma RN_sign v : RN v <= 0 -> forall x y, fin x -> fin y -> v = fval x - fval y -> v <= 0.
Proof.
  intros Hr x y Hx Hy ->. destruct (Rle_lt_dec (fval x - fval y) 0) as [|Hp]; [assumption|exfalso].
  assert (H0 : RN 0 <= RN (fval x - fval y)) by (apply RN_le; lra). rewrite RN_0 in H0.
  assert (E : RN (fval x - fval y) = 0) by lra. apply RN_diff_zero in E; auto. lra.
Qed.
Lemma nearest_pos (x : F) v : fin x -> fval x = RN v -> in_f64 v -> 0 < fval x -> nearest_float false v x.
Proof.
  intros Hx E Hr Hp. unfold in_f64 in Hr. split; [apply Hx|]. rewrite float_value_fval, nearest64_RN. rewrite bpow2 in Hr. split; [|intros; lra].
  intros _. split; [exact E|]. destruct (fin_sign x Hx) as [[(s & ->) V]|[(m & e & -> & V)|(m & e & -> & V)]]; try lra.
Qed.
Lemma nearest_over v : ~ in_f64 v -> nearest_float false v (S754_infinity false).
Proof.
  intros Hr. split; [reflexivity|]. rewrite nearest64_RN. unfold in_f64 in Hr. rewrite bpow2 in Hr. split; [intros Q; contradiction|auto].
Qed.
Lemma sub_violation a b : fin a -> fin b ->
  nonnegative (fmax (flit 0) (SFsub 53 1024 a b)) /\
  (is_zero (fmax (flit 0) (SFsub 53 1024 a b)) <-> fval a <= fval b) /\
  (~ fval a <= fval b -> nearest_float false (Rabs (fval a - fval b)) (fmax (flit 0) (SFsub 53 1024 a b))).
Proof.
  intros Ha Hb. destruct (sub_case a b Ha Hb) as [(Hr & Hs & Es)|(Hr & Es)].
  - destruct (Rle_lt_dec (fval (SFsub 53 1024 a b)) 0) as [Hn|Hp].
    + pose proof (max0_neg _ Hs Hn) as Hz. split; [apply zero_nonneg; exact Hz|].
      assert (Hle : fval a <= fval b). { rewrite Es in Hn. pose proof (RN_sign _ Hn a b Ha Hb eq_refl). lra. }
      split; [tauto|]. intros Q; contradiction.
    + rewrite max0_pos by assumption. destruct (pos_nonneg _ Hs Hp) as [H1 H2]. split; [exact H1|].
      assert (Hlt : fval b < fval a).
      { destruct (Rlt_le_dec (fval b) (fval a)) as [|Hle]; [assumption|exfalso]. assert (H0 : RN (fval a - fval b) <= RN 0) by (apply RN_le; lra). rewrite RN_0 in H0. lra. }
      split; [split; [tauto|intros; lra]|]. intros _. rewrite Rabs_right by lra. apply nearest_pos; auto.
  - rewrite Es. destruct (Rlt_bool_spec (fval a) (fval b)) as [Hl|Hl].
    + rewrite fl0. split; [exact I|]. split; [|intros; lra]. split; [intros; lra|]. intros _. exists false. reflexivity.
    + rewrite fl0. split; [exact I|].
      assert (Hne : fval b < fval a).
      { destruct (Rle_lt_or_eq_dec _ _ Hl) as [|Q]; [assumption|exfalso]. apply Hr. replace (fval a - fval b) with 0 by lra. unfold in_f64. rewrite RN_0, Rabs_R0. apply bpow_gt_0. }
      split; [split; [intros (s & Q); discriminate Q|intros; lra]|]. intros _. rewrite Rabs_right by lra. apply nearest_over. exact Hr.
Qed.
Lemma ext_le_fin a b : fin a -> fin b -> (ext_le a b <-> fval a <= fval b).
Proof. intros [_ Ha] [_ Hb]. rewrite <- !float_value_fval. destruct a as [|?| |], b as [|?| |]; try discriminate Ha; try discriminate Hb; cbn [ext_le]; reflexivity. Qed.

Section Violation.
  Variables fsin fcos : F -> F.
  Notation NF := (NumF fsin fcos).
  Notation ev := (@evaluate F NF).

  Lemma violation_ineq vs c : ckd c <> Equal ->
    @violation F NF vs c = fmax (flit 0) (SFsub 53 1024 (ev vs (lower_side c)) (ev vs (upper_side c))).
  Proof. unfold violation, lower_side, upper_side. destruct (ckd c); [congruence|reflexivity|reflexivity]. Qed.
  (** Inequalities, whatever the two sides evaluate to except NaN: the violation is a number
      at least zero (or infinite), it is zero exactly when the inequality holds, and otherwise
      it is the binary64 number nearest to the difference. *)
  Theorem C65_inequality vs c (a b : F) :
    ckd c <> Equal -> ev vs (lower_side c) = a -> ev vs (upper_side c) = b -> f64 a -> f64 b -> ~ is_nan a -> ~ is_nan b ->
    nonnegative (@violation F NF vs c) /\
    (is_zero (@violation F NF vs c) <-> ext_le a b) /\
    (finite64 a -> finite64 b -> ~ ext_le a b -> nearest_float false (Rabs (float_value a - float_value b)) (@violation F NF vs c)).
  Proof.
    intros Hk Ea Eb Fa Fb Na Nb. rewrite violation_ineq by exact Hk.
    assert (Es : SFsub 53 1024 (ev vs (lower_side c)) (ev vs (upper_side c)) = SFsub 53 1024 a b) by (rewrite Ea, Eb; reflexivity). rewrite Es. clear Es Ea Eb.
    destruct (is_finite_SF a) eqn:Ha; [destruct (is_finite_SF b) eqn:Hb|].
    - assert (Fia : fin a) by (split; auto). assert (Fib : fin b) by (split; auto). destruct (sub_violation a b Fia Fib) as (H1 & H2 & H3).
      split; [exact H1|]. rewrite (ext_le_fin a b Fia Fib). split; [exact H2|]. intros _ _. rewrite !float_value_fval. exact H3.
    - destruct b as [sb|sb| |sb mb eb]; try discriminate Hb; [|exfalso; apply Nb; reflexivity].
      destruct a as [sa|sa| |sa ma ea]; try discriminate Ha; destruct sb; cbn;
        (split; [exact I|split; [split; [intros (s & Q); first [discriminate Q|exact I]|intros Q; first [exists false; reflexivity|destruct Q]]|intros _ [_ Q]; discriminate Q]]).
    - destruct a as [sa|sa| |sa ma ea]; try discriminate Ha; [|exfalso; apply Na; reflexivity].
      destruct b as [sb|sb| |sb mb eb]; try (exfalso; apply Nb; reflexivity); destruct sa; try destruct sb; cbn;
        (split; [exact I|split; [split; [intros (s & Q); first [discriminate Q|exact I]|intros Q; first [exists false; reflexivity|destruct Q]]|intros [_ Q]; discriminate Q]]).
  Qed.
  (** Equalities between finite values. *)
  Theorem C65_equality vs c (a b : F) :
    ckd c = Equal -> ev vs (clhs c) = a -> ev vs (crhs c) = b -> finite64 a -> finite64 b ->
    nonnegative (@violation F NF vs c) /\
    (is_zero (@violation F NF vs c) <-> float_value a = float_value b) /\
    nearest_float false (Rabs (float_value a - float_value b)) (@violation F NF vs c).
  Proof.
    intros Hk Ea Eb Fa Fb. apply finite_fin in Fa. apply finite_fin in Fb. rewrite !float_value_fval.
    assert (Ev : @violation F NF vs c = SFabs (SFsub 53 1024 a b)).
    { unfold violation. rewrite Hk. rewrite Ea, Eb. reflexivity. }
    rewrite Ev. clear Ev Ea Eb.
    assert (Abs : RN (Rabs (fval a - fval b)) = Rabs (RN (fval a - fval b))).
    { unfold Rabs at 1. destruct (Rcase_abs (fval a - fval b)) as [Hn|Hn].
      - assert (H0 : RN (fval a - fval b) <= RN 0) by (apply RN_le; lra). rewrite RN_0 in H0. rewrite RN_opp. symmetry. apply Rabs_left1. exact H0.
      - assert (H0 : RN 0 <= RN (fval a - fval b)) by (apply RN_le; lra). rewrite RN_0 in H0. symmetry. apply Rabs_right. lra. }
    destruct (sub_case a b Fa Fb) as [(Hr & Hs & Es)|(Hr & Es)].
    - destruct (fabs_fin _ Hs) as [Hb Eb]. split.
      { destruct (SFsub 53 1024 a b) as [s|s| |s m e]; try (destruct Hs as [_ Hs]; discriminate Hs); exact I. }
      assert (Hin : in_f64 (Rabs (fval a - fval b))) by (unfold in_f64; rewrite Abs, Rabs_Rabsolu; exact Hr).
      split.
      + split.
        * intros (s & Q). assert (E0 : fval (SFabs (SFsub 53 1024 a b)) = 0) by (rewrite Q; reflexivity). rewrite Eb, Es in E0.
          apply (RN_diff_zero a b Fa Fb). destruct (Req_dec (RN (fval a - fval b)) 0) as [|Hn]; [assumption|]. apply Rabs_no_R0 in Hn. congruence.
        * intros E. assert (E0 : fval (SFsub 53 1024 a b) = 0) by (rewrite Es, E, Rminus_diag_eq by reflexivity; apply RN_0).
          destruct (fin_sign _ Hs) as [[(s & ->) _]|[(m & e & _ & V)|(m & e & _ & V)]]; try lra. exists false. reflexivity.
      + split; [apply Hb|]. rewrite float_value_fval, nearest64_RN. unfold in_f64 in Hin. rewrite bpow2 in Hin. split; [|intros; lra].
        intros _. split; [rewrite Eb, Es, Abs; reflexivity|]. destruct (SFsub 53 1024 a b) as [s|s| |s m e]; try (destruct Hs as [_ Hs]; discriminate Hs); reflexivity.
    - rewrite Es. split; [exact I|]. split.
      + split; [intros (s & Q); discriminate Q|]. intros E. exfalso. apply Hr. rewrite E, Rminus_diag_eq by reflexivity. unfold in_f64. rewrite RN_0, Rabs_R0. apply bpow_gt_0.
      + apply nearest_over. unfold in_f64. rewrite Abs, Rabs_Rabsolu. exact Hr.
  Qed.
  (** Equalities with an infinite side: equal infinities give NaN, everything else infinity. *)
  Theorem C65_infinite vs c (a b : F) :
    ckd c = Equal -> ev vs (clhs c) = a -> ev vs (crhs c) = b -> ~ is_nan a -> ~ is_nan b -> finiteb a = false \/ finiteb b = false ->
    (a = b -> is_nan (@violation F NF vs c)) /\ (a <> b -> @violation F NF vs c = S754_infinity false).
  Proof.
    intros Hk Ea Eb Na Nb Hi.
    assert (Ev : @violation F NF vs c = SFabs (SFsub 53 1024 a b)).
    { unfold violation. rewrite Hk. rewrite Ea, Eb. reflexivity. }
    rewrite Ev. clear Ev Ea Eb Hk.
    destruct a as [sa|sa| |sa ma ea]; try (exfalso; apply Na; reflexivity);
      destruct b as [sb|sb| |sb mb eb]; try (exfalso; apply Nb; reflexivity);
      try (destruct Hi as [Hi|Hi]; discriminate Hi); try destruct sa; try destruct sb; cbn; unfold is_nan;
      (split; intros Q; try reflexivity; try discriminate Q; try (exfalso; apply Q; reflexivity)).
  Qed.
  (** With a NaN side, an equality has violation NaN and an inequality zero. *)
  Theorem C65_nan vs c :
    is_nan (ev vs (clhs c)) \/ is_nan (ev vs (crhs c)) ->
    @violation F NF vs c = match ckd c with Equal => S754_nan | _ => S754_zero false end.
  Proof.
    intros Hn. unfold violation. set (a := ev vs (clhs c)) in *. set (b := ev vs (crhs c)) in *. clearbody a b.
    destruct (ckd c), Hn as [Hn|Hn]; unfold is_nan in Hn; subst; try reflexivity;
      try (destruct a as [|?| |]; reflexivity); destruct b as [|?| |]; reflexivity.
  Qed.
End Violation.
(** [x <= 0.1] at [x = 0.3]: positive; at [0.1]: zero; at infinity: infinite. *)
Example C65_example :
  let le v := mk_constraint 2 (NVar 0 "x"%string VarContinuous) LessEqual (NConst 1 (SFdiv 53 1024 (flit 1) (flit 10))) ""%string in
  let viol x := @violation F NumF0 [(NVar 0 "x"%string VarContinuous, x)] (le tt) in
  viol (SFdiv 53 1024 (flit 1) (flit 10)) = S754_zero false /\
  viol (S754_infinity false) = S754_infinity false /\
  SFltb (S754_zero false) (viol (SFdiv 53 1024 (flit 3) (flit 10))) = true.
Proof. vm_compute. auto. Qed.

(** ** C66 Rounding errors *)
Section Errors.
  Variables fsin fcos : F -> F.
  Notation NF := (NumF fsin fcos).
  Notation ev := (@evaluate F NF).

  Lemma reads_var vs r k s kd : reads vs r -> good fsin fcos vs (NVar k s kd) (r k) (Rabs (r k)) 0.
  Proof.
    intros Hr. apply sv_good; [exact I|]. cbn [evaluate]. destruct (hget ptr_eq (NVar k s kd) vs) as [x|] eqn:E.
    - destruct (Hr (NVar k s kd) x eq_refl E) as [Vx Ex]. cbn [nid] in Ex. constructor; [exact Vx|lra|]. intros Hx.
      assert (Fx : finiteb x = true) by (apply finite_fin in Hx; apply Hx). rewrite (Ex Fx), float_value_fval, Rminus_diag_eq by reflexivity.
      rewrite Rabs_R0. apply Rmult_le_pos; [apply gam_pos|apply Rabs_pos].
    - constructor; [reflexivity|lra|]. intros [_ Hx]. discriminate Hx.
  Qed.
  Lemma est_const_good vs r i v : finite64 v -> good fsin fcos vs (NConst i v) (e_val (e_const v) r) (e_mag (e_const v) r) (e_ops (e_const v)).
  Proof. intros Hv. cbn. rewrite float_value_fval. apply good_const. apply finite_fin. exact Hv. Qed.

  Definition fits (n : node F) (e : est) : Prop := forall vs r, reads vs r -> good fsin fcos vs n (e_val e r) (e_mag e r) (e_ops e).
  Lemma fits_nth pool es i a e : Forall2 fits pool es -> nth_error pool i = Some a -> nth_error es i = Some e -> fits a e.
  Proof.
    intros Hf. revert i. induction Hf as [|x y l l' Hxy Hf IH]; intros i H1 H2; destruct i; cbn in *; try discriminate; [|eauto].
    injection H1 as <-. injection H2 as <-. exact Hxy.
  Qed.
  Lemma est_step (O : HashOrd) k pool es o n k' e :
    Forall2 fits pool es -> op_est k es o e -> @exec F NF O pool o k = Ok (n, k') -> fits n e.
  Proof.
    intros Hf Ho E vs r Hr.
    destruct Ho as [s kd|v Hv|i j a b Ha Hb|i v a Ha Hv|i v a Ha Hv|i j a b Ha Hb|i v a Ha Hv|i v a Ha Hv|i j a b Ha Hb|i v a Ha Hv|i v a Ha Hv|i v a Ha Hv|i a Ha|i a Ha];
      cbn [exec] in E;
      try (apply (@with2_ok F NF) in E as (x & y & Ex & Ey & E); pose proof (fits_nth _ _ _ _ _ Hf Ey Hb vs r Hr) as Gb);
      try (apply (@with1_ok F NF) in E as (x & Ex & E));
      try (pose proof (fits_nth _ _ _ _ _ Hf Ex Ha vs r Hr) as Ga);
      try (pose proof (proj1 (finite_fin v) Hv) as Fv);
      cbn [e_add e_sub e_mul e_div e_neg e_const e_val e_mag e_ops]; rewrite ?float_value_fval.
    - injection E as <- _. apply reads_var. exact Hr.
    - injection E as <- _. apply good_const. exact Fv.
    - eapply add_nn_good; eauto.
    - eapply add_ns_good; eauto.
    - eapply add_sn_good; eauto.
    - eapply sub_nn_good; eauto.
    - eapply sub_ns_good; eauto.
    - eapply sub_sn_good; eauto.
    - eapply mul_nn_good; eauto.
    - eapply mul_ns_good; eauto.
    - eapply mul_sn_good; eauto.
    - eapply div_ns_good; eauto.
    - eapply neg_n_good; eauto.
    - injection E as <- _. exact Ga.
  Qed.
  Lemma est_fits k pool es : @est_reach NF k pool es -> Forall2 fits pool es.
  Proof.
    intros Hr. induction Hr as [|HO k pool es o n k' e Hr IH Ho E]; [constructor|].
    apply Forall2_app; [exact IH|]. constructor; [eapply est_step; eauto|constructor].
  Qed.
  Lemma est_sv k pool es i n e vs r : @est_reach NF k pool es -> nth_error pool i = Some n -> nth_error es i = Some e -> reads vs r ->
    sv (ev vs n) (e_val e r) (e_mag e r) (e_ops e).
  Proof. intros Hr Hn He Hv. apply good_sv. exact (fits_nth _ _ _ _ _ (est_fits _ _ _ Hr) Hn He vs r Hv). Qed.

  (** Whatever the constructors merged, folded, distributed and dropped: if [evaluate] gives a
      finite number, it is within the bound of the exact value. *)
  Theorem C66_value k pool es i n e vs r :
    @est_reach NF k pool es -> nth_error pool i = Some n -> nth_error es i = Some e -> reads vs r ->
    finiteb (ev vs n) = true ->
    Rabs (float_value (ev vs n) - e_val e r) <= error_bound (e_ops e) (e_mag e r).
  Proof.
    intros Hr Hn He Hv Hf. destruct (est_sv _ _ _ _ _ _ _ _ Hr Hn He Hv) as [V _ Er]. rewrite float_value_fval. apply Er.
    apply finite_fin. split; [exact V|exact Hf].
  Qed.
  (** The same for the violation of a comparison of two such expressions. *)
  Definition exact_violation (kd : ckind) (a b : R) : R :=
    match kd with Equal => Rabs (a - b) | LessEqual => Rmax 0 (a - b) | GreaterEqual => Rmax 0 (b - a) end.
  Lemma Rmax0_lip x y : Rabs (Rmax 0 x - Rmax 0 y) <= Rabs (x - y).
  Proof. unfold Rmax, Rabs. repeat destruct (Rle_dec _ _); repeat destruct (Rcase_abs _); lra. Qed.
  Lemma sub_near a fa ma ka b fb mb kb : sv a fa ma ka -> sv b fb mb kb -> fin a -> fin b ->
    Rabs ((fval a - fval b) - (fa - fb)) <= gam (ka + kb) * (ma + mb).
  Proof.
    intros Sa Sb Ha Hb. pose proof (sv_weak _ _ _ _ ma (ka + kb) Sa (Rle_refl _) ltac:(lia)) as [_ _ Ea].
    pose proof (sv_weak _ _ _ _ mb (ka + kb) Sb (Rle_refl _) ltac:(lia)) as [_ _ Eb]. specialize (Ea Ha). specialize (Eb Hb).
    replace (fval a - fval b - (fa - fb)) with ((fval a - fa) - (fval b - fb)) by ring. unfold Rminus at 1.
    eapply Rle_trans; [apply Rabs_triang|]. rewrite Rabs_Ropp. lra.
  Qed.
  Lemma sub_sv a fa ma ka b fb mb kb : sv a fa ma ka -> sv b fb mb kb -> fin a -> fin b -> fin (SFsub 53 1024 a b) ->
    Rabs (fval (SFsub 53 1024 a b) - (fa - fb)) <= gam (ka + kb + 1) * (ma + mb).
  Proof.
    intros Sa Sb Ha Hb Hs. destruct (sub_case a b Ha Hb) as [(_ & _ & ->)|(_ & E)].
    2:{ rewrite E in Hs. destruct Hs as [_ Hs]. discriminate Hs. }
    rewrite Nat.add_1_r. replace (ma + mb) with (ma + mb + 0) by ring. apply near_round with (fval a - fval b).
    - unfold Rminus. eapply Rle_trans; [apply Rabs_triang|]. rewrite Rabs_Ropp. destruct Sa as [_ Aa _], Sb as [_ Ab _]. lra.
    - apply sub_near; auto.
    - lra.
    - destruct (fopp_fin b Hb) as [Fo Vo]. pose proof (add_error a (SFopp b) Ha Fo) as G. rewrite Vo in G. rewrite <- u_bpow.
      replace (fval a - fval b) with (fval a + - fval b) by ring. eapply Rle_trans; [exact G|]. lra.
  Qed.
  Lemma viol_err a fa ma ka b fb mb kb : sv a fa ma ka -> sv b fb mb kb -> fin a -> fin b -> finiteb (fmax (flit 0) (SFsub 53 1024 a b)) = true ->
    Rabs (fval (fmax (flit 0) (SFsub 53 1024 a b)) - Rmax 0 (fa - fb)) <= gam (ka + kb + 1) * (ma + mb).
  Proof.
    intros Sa Sb Ha Hb Hf. destruct (sub_case a b Ha Hb) as [(_ & Hs & _)|(_ & E)].
    - assert (Em : fval (fmax (flit 0) (SFsub 53 1024 a b)) = Rmax 0 (fval (SFsub 53 1024 a b))).
      { destruct (Rle_lt_dec (fval (SFsub 53 1024 a b)) 0) as [Hn|Hp].
        - destruct (max0_neg _ Hs Hn) as (s & ->). unfold Rmax. destruct (Rle_dec 0 (fval (SFsub 53 1024 a b))); cbn; lra.
        - rewrite max0_pos by assumption. symmetry. apply Rmax_right. lra. }
      rewrite Em. eapply Rle_trans; [apply Rmax0_lip|]. apply sub_sv; auto.
    - rewrite E in *. destruct (Rlt_bool_spec (fval a) (fval b)) as [Hl|Hl]; [|discriminate Hf].
      change (fval (fmax (flit 0) (S754_infinity true))) with 0. replace 0 with (Rmax 0 (fval a - fval b)) at 1 by (apply Rmax_left; lra).
      eapply Rle_trans; [apply Rmax0_lip|]. eapply Rle_trans; [apply (sub_near a fa ma ka b fb mb kb); auto|].
      apply Rmult_le_compat_r; [pose proof (sv_mag _ _ _ _ Sa); pose proof (sv_mag _ _ _ _ Sb); lra|apply gam_mono; lia].
  Qed.
  Theorem C66_violation k pool es i j a b ea eb vs r (c : constraint F) :
    @est_reach NF k pool es -> nth_error pool i = Some a -> nth_error es i = Some ea -> nth_error pool j = Some b -> nth_error es j = Some eb ->
    reads vs r -> clhs c = a -> crhs c = b -> finiteb (ev vs a) = true -> finiteb (ev vs b) = true -> finiteb (@violation F NF vs c) = true ->
    Rabs (float_value (@violation F NF vs c) - exact_violation (ckd c) (e_val ea r) (e_val eb r)) <=
      error_bound (e_ops ea + e_ops eb + 1) (e_mag ea r + e_mag eb r).
  Proof.
    intros Hr Ha Hea Hb Heb Hv El Er Fa Fb Fv. pose proof (est_sv _ _ _ _ _ _ _ _ Hr Ha Hea Hv) as Sa. pose proof (est_sv _ _ _ _ _ _ _ _ Hr Hb Heb Hv) as Sb.
    assert (Ia : fin (ev vs a)) by (apply finite_fin; split; [apply Sa|exact Fa]). assert (Ib : fin (ev vs b)) by (apply finite_fin; split; [apply Sb|exact Fb]).
    rewrite float_value_fval. unfold violation in *. rewrite El, Er in *. destruct (ckd c); cbn [exact_violation].
    - set (x := ev vs a) in *. set (y := ev vs b) in *. clearbody x y.
      change (finiteb (SFabs (SFsub 53 1024 x y)) = true) in Fv. change (Rabs (fval (SFabs (SFsub 53 1024 x y)) - Rabs (e_val ea r - e_val eb r)) <= gam (e_ops ea + e_ops eb + 1) * (e_mag ea r + e_mag eb r)).
      assert (Fs : fin (SFsub 53 1024 x y)).
      { split; [apply sub_vb; [apply Ia|apply Ib]|]. destruct (SFsub 53 1024 x y); try discriminate Fv; reflexivity. }
      rewrite (proj2 (fabs_fin _ Fs)). eapply Rle_trans; [apply Rabs_triang_inv2|]. apply sub_sv; auto.
    - exact (viol_err _ _ _ _ _ _ _ _ Sa Sb Ia Ib Fv).
    - rewrite (Nat.add_comm (e_ops ea)), (Rplus_comm (e_mag ea r)). exact (viol_err _ _ _ _ _ _ _ _ Sb Sa Ib Ia Fv).
  Qed.
End Errors.
(** A simpler form of the bound. *)
Theorem C66_simple k m : (Z.of_nat k <= 2 ^ 52)%Z -> 0 <= m -> error_bound k m <= INR k * / 2 ^ 52 * m.
Proof.
  intros Hk Hm. unfold error_bound. apply Rmult_le_compat_r; [exact Hm|]. pose proof u_pos as Hu.
  assert (Hku : INR k * u <= / 2).
  { rewrite INR_IZR_INZ. apply Rle_trans with (IZR (2 ^ 52) * u); [apply Rmult_le_compat_r; [lra|apply IZR_le; exact Hk]|].
    right. unfold u. replace (2 ^ 53) with (2 * IZR (2 ^ 52)); [|change (2 ^ 52)%Z with (2 ^ Z.of_nat 52)%Z; rewrite <- (pow_IZR 2 52); simpl; ring]. field. apply not_0_IZR. cbn. lia. }
  assert (Hp : forall j, INR j * u <= / 2 -> (1 + u) ^ j <= 1 + INR j * u + (INR j * u) * (INR j * u)).
  { intros j. induction j as [|j IH]; [cbn; lra|]. rewrite S_INR. intros Hj. rewrite <- tech_pow_Rmult. pose proof (pos_INR j) as Pj.
    assert (Hj' : INR j * u <= / 2) by nra. specialize (IH Hj'). assert (0 <= INR j * u) by (apply Rmult_le_pos; lra).
    apply Rle_trans with ((1 + u) * (1 + INR j * u + (INR j * u) * (INR j * u))); [apply Rmult_le_compat_l; lra|]. nra. }
  specialize (Hp k Hku). assert (Hpos : 0 <= INR k * u) by (apply Rmult_le_pos; [apply pos_INR|lra]).
  replace (/ 2 ^ 52) with (2 * u); [nra|]. unfold u. replace (2 ^ 53) with (2 * 2 ^ 52) by (simpl; ring). field.
Qed.
(** The product (x + 0.1) * 0.3 + x * x - 2 * x, at x = 0.7: the constants are distributed and merged. *)
Definition f_ratio (a b : Z) : F := SFdiv 53 1024 (flit a) (flit b).
Example C66_example :
  exists k pool es n e,
    @est_reach NumF0 k pool es /\ nth_error pool 6 = Some n /\ nth_error es 6 = Some e /\
    reads [(NVar 0 "x"%string VarContinuous, f_ratio 7 10)] (fun _ => float_value (f_ratio 7 10)) /\
    finiteb (@evaluate F NumF0 [(NVar 0 "x"%string VarContinuous, f_ratio 7 10)] n) = true /\
    e_ops e = 6%nat /\
    (forall r, e_val e r = (r 0%nat + float_value (f_ratio 1 10)) * float_value (f_ratio 3 10) + r 0%nat * r 0%nat - float_value (flit 2) * r 0%nat).
Proof.
  assert (Fin : forall a b, finite64 (f_ratio a b) <-> (valid_binary 53 1024 (f_ratio a b) && finiteb (f_ratio a b))%bool = true) by (intros a b; rewrite andb_true_iff; reflexivity).
  eexists _, _, _, _, _. split.
  { eapply (@er_step NumF0 ord_id); [eapply (@er_step NumF0 ord_id); [eapply (@er_step NumF0 ord_id); [eapply (@er_step NumF0 ord_id);
      [eapply (@er_step NumF0 ord_id); [eapply (@er_step NumF0 ord_id); [eapply (@er_step NumF0 ord_id); [apply er_nil| |]| |]| |]| |]| |]| |]| |].
    - apply (oe_var _ _ "x"%string VarContinuous).
    - reflexivity.
    - apply (oe_add_ns _ _ 0 (f_ratio 1 10)); [reflexivity|apply Fin; vm_compute; reflexivity].
    - vm_compute. reflexivity.
    - apply (oe_mul_ns _ _ 1 (f_ratio 3 10)); [reflexivity|apply Fin; vm_compute; reflexivity].
    - vm_compute. reflexivity.
    - apply (oe_mul_nn _ _ 0 0); reflexivity.
    - vm_compute. reflexivity.
    - apply (oe_add_nn _ _ 2 3); reflexivity.
    - vm_compute. reflexivity.
    - apply (oe_mul_sn _ _ 0 (flit 2)); [reflexivity|split; reflexivity].
    - vm_compute. reflexivity.
    - apply (oe_sub_nn _ _ 4 5); reflexivity.
    - vm_compute. reflexivity. }
  split; [reflexivity|]. split; [reflexivity|]. split.
  { intros v x Hv Hg. destruct v as [i c|i s kd|i l|i a|i a b|i a b|i a]; try discriminate Hv. cbn [hget ptr_eq] in Hg. destruct (Nat.eqb i 0) eqn:Ei; [|discriminate Hg].
    assert (Ex : x = f_ratio 7 10) by congruence. rewrite Ex. split; [vm_compute; reflexivity|reflexivity]. }
  split; [vm_compute; reflexivity|]. split; [reflexivity|]. intros r. reflexivity.
Qed.
