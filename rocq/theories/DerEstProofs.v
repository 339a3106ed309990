(** Proofs about the rounding errors of derivatives. *)
From Verif Require Import Base Num Node NodeInd NodeDiff ExprSpec World EvalProofs PathProofs DerivProofs Api TextSpec ExactSpec RoundSpec PolySpec
     FmtProofs FloatProofs FloatOps RoundOps RoundProofs Properties_Text Properties_Round DerEstSpec.
From Coq Require Import Reals Lra Lia Floats.SpecFloat.
From Flocq Require Import Core.
Import RoundSpec.
Local Open Scope R_scope.

Lemma arith_args i args : arith (NAdd i args) <-> Forall arith args.
Proof.
  cbn [arith]. induction args as [|a l IH]; [split; auto|]. rewrite IH. split; [intros [H1 H2]; constructor; auto|intros Q; inversion Q; auto].
Qed.
Lemma safe_args num der vs r i args : safe_quotients num der vs r (NAdd i args) <-> Forall (safe_quotients num der vs r) args.
Proof.
  cbn [safe_quotients]. induction args as [|a l IH]; [split; auto|]. rewrite IH. split; [intros [H1 H2]; constructor; auto|intros Q; inversion Q; auto].
Qed.
(** What the bounds need of an expression: those of the arithmetic operations, and those of all
    operations where the denominators are safe, have it. *)
Fixpoint fine (fsin fcos : F -> F) (der : bool) (vs : vals F) (r : nat -> R) (n : node F) : Prop :=
  match n with
  | NConst _ v => finite64 v
  | NVar _ _ _ => True
  | NAdd _ args => (fix all l := match l with [] => True | a :: l' => fine fsin fcos der vs r a /\ all l' end) args
  | NSin _ a | NCos _ a => accurate fsin sin /\ accurate fcos cos /\ fine fsin fcos der vs r a
  | NMul _ a b => fine fsin fcos der vs r a /\ fine fsin fcos der vs r b
  | NDiv _ a (NConst _ v) => fine fsin fcos der vs r a /\ finite64 v
  | NDiv _ a b => fine fsin fcos der vs r a /\ fine fsin fcos der vs r b /\ safe_denominator (@evaluate F (NumF fsin fcos) vs b) (est_of b) r /\
      (der = true -> nid a <> nid b /\ safe_denominator (SFmul 53 1024 (@evaluate F (NumF fsin fcos) vs b) (@evaluate F (NumF fsin fcos) vs b)) (e_mul (est_of b) (est_of b)) r)
  end.
Lemma fine_args fsin fcos der vs r i args : fine fsin fcos der vs r (NAdd i args) <-> Forall (fine fsin fcos der vs r) args.
Proof.
  cbn [fine]. induction args as [|a l IH]; [split; auto|]. rewrite IH. split; [intros [H1 H2]; constructor; auto|intros Q; inversion Q; auto].
Qed.
Lemma const_or (b : node F) : is_constant b = false \/ exists j v, b = NConst j v.
Proof. destruct b; eauto. Qed.
Lemma fine_div fsin fcos der vs r i a b : is_constant b = false ->
  fine fsin fcos der vs r (NDiv i a b) = (fine fsin fcos der vs r a /\ fine fsin fcos der vs r b /\ safe_denominator (@evaluate F (NumF fsin fcos) vs b) (est_of b) r /\
      (der = true -> nid a <> nid b /\ safe_denominator (SFmul 53 1024 (@evaluate F (NumF fsin fcos) vs b) (@evaluate F (NumF fsin fcos) vs b)) (e_mul (est_of b) (est_of b)) r)).
Proof. destruct b; try discriminate; reflexivity. Qed.
Lemma est_div i a b : is_constant b = false -> est_of (NDiv i a b) = e_quot (est_of a) (est_of b).
Proof. destruct b; try discriminate; reflexivity. Qed.
Lemma terms_div c i a b acc : is_constant b = false -> occurrence_terms c (NDiv i a b) acc =
  occurrence_terms c a (e_mul acc (e_quot (e_const (flit 1)) (est_of b))) ++ occurrence_terms c b (e_mul acc (e_quot (e_neg (est_of a)) (e_mul (est_of b) (est_of b)))).
Proof. destruct b; try discriminate; reflexivity. Qed.
Lemma arith_fine fsin fcos der vs r n : arith n -> fine fsin fcos der vs r n.
Proof.
  induction n as [i w|i st kd|i args IH|i a IH|i a b IHa IHb|i a b IHa IHb|i a IH] using node_ind'; intros Ha; try (destruct Ha; fail); try exact Ha.
  - apply arith_args in Ha. apply fine_args. rewrite Forall_forall in *. auto.
  - destruct b; try (destruct Ha; fail). destruct Ha as [Ha Hv]. split; auto.
  - destruct Ha as [Ha Hb]. split; auto.
Qed.
Lemma safe_fine fsin fcos der vs r n : accurate fsin sin -> accurate fcos cos -> finite_constants n -> safe_quotients (NumF fsin fcos) der vs r n -> fine fsin fcos der vs r n.
Proof.
  intros Hs Hc. induction n as [i w|i st kd|i args IH|i a IH|i a b IHa IHb|i a b IHa IHb|i a IH] using node_ind'; intros Hf Hq.
  - apply (Hf i). apply sub_refl.
  - exact I.
  - apply safe_args in Hq. apply fine_args. rewrite Forall_forall in *. intros a Ha. apply IH; auto. intros j v Hv. apply (Hf j). eapply sub_arg; [exact Ha|exact Hv].
  - cbn [fine]. split; [exact Hs|]. split; [exact Hc|]. apply IH; [|exact Hq]. intros j v Hv. apply (Hf j). eapply sub_arg; [left; reflexivity|exact Hv].
  - assert (Fa : finite_constants a) by (intros j v Hv; apply (Hf j); eapply sub_arg; [left; reflexivity|exact Hv]).
    assert (Fb : finite_constants b) by (intros j v Hv; apply (Hf j); eapply sub_arg; [right; left; reflexivity|exact Hv]).
    destruct (const_or b) as [Cb|(j & v & ->)].
    + rewrite fine_div by exact Cb.
      assert (Hq' : safe_quotients (NumF fsin fcos) der vs r a /\ safe_quotients (NumF fsin fcos) der vs r b /\ safe_denominator (@evaluate F (NumF fsin fcos) vs b) (est_of b) r /\
        (der = true -> nid a <> nid b /\ safe_denominator (SFmul 53 1024 (@evaluate F (NumF fsin fcos) vs b) (@evaluate F (NumF fsin fcos) vs b)) (e_mul (est_of b) (est_of b)) r))
        by (destruct b; try discriminate Cb; exact Hq).
      destruct Hq' as (H1 & H2 & H3 & H4). repeat (split; auto).
    + split; [apply IHa; assumption|]. apply (Fb j). apply sub_refl.
  - destruct Hq as [H1 H2]. split; [apply IHa|apply IHb]; auto; intros j v Hv; apply (Hf j); (eapply sub_arg; [|exact Hv]); cbn; auto.
  - cbn [fine]. split; [exact Hs|]. split; [exact Hc|]. apply IH; [|exact Hq]. intros j v Hv. apply (Hf j). eapply sub_arg; [left; reflexivity|exact Hv].
Qed.
Lemma tot_perm a b : Permutation a b -> tot a = tot b.
Proof. intros Q. induction Q; cbn [tot]; lra. Qed.
Fixpoint sumN (l : list nat) : nat := match l with [] => 0 | x :: l' => x + sumN l' end.
Lemma sumN_perm a b : Permutation a b -> sumN a = sumN b.
Proof. intros Q. induction Q; cbn [sumN]; lia. Qed.
Lemma e_sum_cons e es : e_sum (e :: es) = e_add e (e_sum es). Proof. reflexivity. Qed.
Lemma e_sum_val es r : e_val (e_sum es) r = tot (map (fun e => e_val e r) es).
Proof. induction es as [|e es IH]; [reflexivity|]. rewrite e_sum_cons. cbn [e_add e_val map tot]. rewrite IH. reflexivity. Qed.
Lemma e_sum_mag es r : e_mag (e_sum es) r = tot (map (fun e => e_mag e r) es).
Proof. induction es as [|e es IH]; [cbn; apply Rabs_R0|]. rewrite e_sum_cons. cbn [e_add e_mag map tot]. rewrite IH. reflexivity. Qed.
Lemma e_sum_ops es : e_ops (e_sum es) = sumN (map (fun e => (e_ops e + 1)%nat) es).
Proof. induction es as [|e es IH]; [reflexivity|]. rewrite e_sum_cons. cbn [e_add e_ops map sumN]. rewrite IH. lia. Qed.

(** *** Sines, cosines and quotients of values. *)
Lemma abs_sin_le x : Rabs (sin x) <= Rabs x.
Proof.
  destruct (Rtotal_order x 0) as [Hx|[-> |Hx]].
  - pose proof (sin_lt_x (- x) ltac:(lra)) as G. rewrite sin_neg in G. pose proof (SIN_bound x). rewrite (Rabs_left x) by lra. apply Rabs_le. split; [lra|].
    destruct (Rle_dec 1 (- x)); [lra|]. pose proof (sin_gt_0 (- x) ltac:(lra) ltac:(pose proof PI2_1; lra)) as G1. rewrite sin_neg in G1. lra.
  - rewrite sin_0. lra.
  - pose proof (sin_lt_x x Hx) as G. pose proof (SIN_bound x). rewrite (Rabs_right x) by lra. apply Rabs_le. split; [|lra].
    destruct (Rle_dec 1 x); [lra|]. pose proof (sin_gt_0 x Hx ltac:(pose proof PI2_1; lra)). lra.
Qed.
Lemma half_lip (h : R) (s : R) : Rabs h <= 1 -> Rabs (2 * h * sin (s / 2)) <= Rabs s.
Proof.
  intros Hh. rewrite !Rabs_mult, (Rabs_right 2) by lra. pose proof (abs_sin_le (s / 2)) as G. pose proof (Rabs_pos (sin (s / 2))).
  assert (E : Rabs s = 2 * Rabs (s / 2)) by (unfold Rdiv; rewrite Rabs_mult, (Rabs_right (/ 2)) by lra; lra). rewrite E.
  assert (Rabs h * Rabs (sin (s / 2)) <= 1 * Rabs (sin (s / 2))) by (apply Rmult_le_compat_r; lra). lra.
Qed.
Lemma sin_lip a b : Rabs (sin a - sin b) <= Rabs (a - b).
Proof. rewrite form4. apply half_lip. apply Rabs_le. pose proof (COS_bound ((a + b) / 2)). lra. Qed.
Lemma cos_lip a b : Rabs (cos a - cos b) <= Rabs (a - b).
Proof.
  rewrite form2. replace (-2 * sin ((a - b) / 2) * sin ((a + b) / 2)) with (2 * (- sin ((a + b) / 2)) * sin ((a - b) / 2)) by ring.
  apply half_lip. rewrite Rabs_Ropp. apply Rabs_le. pose proof (SIN_bound ((a + b) / 2)). lra.
Qed.
Lemma sv_fun g (fr : R -> R) x f m k : accurate g fr -> (forall a, Rabs (fr a) <= 1) -> (forall a b, Rabs (fr a - fr b) <= Rabs (a - b)) ->
  sv x f m k -> sv (g x) (fr f) (m + 1) (k + 1).
Proof.
  intros Hg Hb Hl Sx. pose proof (sv_mag _ _ _ _ Sx) as Hm. destruct Sx as [V A E]. destruct (Hg x V) as [Vg Eg].
  constructor; [exact Vg|specialize (Hb f); lra|]. intros [_ Hf]. destruct (Eg Hf) as [Hx Er]. rewrite !float_value_fval in Er.
  specialize (E (conj V Hx)). eapply Rle_trans; [apply (Rabs_split _ (fr (fval x)))|]. pose proof (Hl (fval x) f). rewrite Nat.add_1_r, gam_S. pose proof u_pos. pose proof (gam_pos k).
  assert (0 <= u * (1 + gam k) * m) by (repeat apply Rmult_le_pos; lra). assert (0 <= u * gam k) by (apply Rmult_le_pos; lra). lra.
Qed.
Lemma sv_quot x f m k y g l j : sv x f m k -> sv y g l j -> fin y -> g <> 0 -> 2 * (gam j * l) <= Rabs g ->
  sv (SFdiv 53 1024 x y) (f / g) (m * (2 * l / (g * g)) + tiny) (k + j + 1).
Proof.
  intros Sx Sy Hy Ng Hs. pose proof (sv_mag _ _ _ _ Sx) as Hm. pose proof (sv_mag _ _ _ _ Sy) as Hl. destruct Sx as [Vx Ax Ex], Sy as [Vy Ay Ey]. specialize (Ey Hy).
  pose proof tiny_pos. pose proof (Rabs_pos_lt _ Ng) as Pg.
  assert (Hg2 : g * g = Rabs g * Rabs g) by (rewrite <- Rabs_mult; symmetry; apply Rabs_right; apply Rle_ge, Rle_0_sqr).
  assert (Hy2 : Rabs g / 2 <= Rabs (fval y)).
  { pose proof (Rabs_triang (fval y) (g - fval y)) as G. replace (fval y + (g - fval y)) with g in G by ring. rewrite (Rabs_minus_sym g) in G. lra. }
  assert (Ny : fval y <> 0) by (intros Z; rewrite Z, Rabs_R0 in Hy2; lra).
  pose proof (Rabs_pos_lt _ Ny) as Py.
  assert (Hgi : Rabs (/ g) <= 2 * l / (g * g)).
  { rewrite Rabs_inv, Hg2. apply Rmult_le_reg_r with (Rabs g * Rabs g); [apply Rmult_lt_0_compat; lra|]. unfold Rdiv. rewrite Rmult_assoc, Rinv_l, Rmult_1_r by nra.
    replace (/ Rabs g * (Rabs g * Rabs g)) with (Rabs g) by (field; lra). lra. }
  assert (Hyi : Rabs (/ fval y - / g) <= gam j * (2 * l / (g * g))).
  { replace (/ fval y - / g) with ((g - fval y) * (/ fval y * / g)) by (field; split; assumption). rewrite !Rabs_mult, !Rabs_inv, (Rabs_minus_sym g).
    apply Rle_trans with ((gam j * l) * (/ (Rabs g / 2) * / Rabs g)).
    - apply Rmult_le_compat; [apply Rabs_pos| |exact Ey|].
      + apply Rmult_le_pos; left; apply Rinv_0_lt_compat; assumption.
      + apply Rmult_le_compat_r; [left; apply Rinv_0_lt_compat; assumption|]. apply Rinv_le_contravar; lra.
    - right. rewrite Hg2. field. lra. }
  assert (Hmul : forall a, Rabs a <= m -> Rabs (a / g) <= m * (2 * l / (g * g))).
  { intros a Ha. unfold Rdiv at 1. rewrite Rabs_mult. apply Rmult_le_compat; try apply Rabs_pos; assumption. }
  constructor; [apply div_vb; [exact Vx|apply Hy]|specialize (Hmul f Ax); lra|].
  intros Hf. destruct (div_back x y Vx Hy Ny Hf) as (Hx & ->). specialize (Ex Hx). rewrite Nat.add_1_r.
  apply near_round with (fval x / fval y); [exact (Hmul f Ax)| |lra|rewrite <- eta_bpow, <- u_bpow; apply any_error].
  exact (near_mul _ _ _ _ _ _ _ _ Ax Ex Hgi Hyi).
Qed.

Section Der.
  Variables fsin fcos : F -> F.
  Notation NF := (NumF fsin fcos).
  Local Instance num_f : Num F := NF.
  Variables (vs : vals F) (r : nat -> R).
  Hypothesis Hr : reads vs r.
  Notation ev := (@evaluate F NF vs).
  Notation gd n e := (good fsin fcos vs n (e_val e r) (e_mag e r) (e_ops e)).
  Notation okn der := (fine fsin fcos der vs r).
  Variable S : node F -> Prop.
  Hypothesis Hclosed : forall n c, S n -> In c (arguments n) -> S c.
  Hypothesis Hcoh : forall a b, S a -> S b -> nid a = nid b -> a = b.
  Hypothesis Hcan : forall n, S n -> @ExprSpec.canonical F NF n.

  Lemma args_notsum i args a : S (NAdd i args) -> In a args -> notsum a.
  Proof.
    intros Hs Ha. destruct (Hcan _ Hs _ (sub_refl _)) as (_ & _ & Hn & _). destruct a; try exact I. exact (Hn _ Ha _ _ eq_refl).
  Qed.
  Lemma div_const i a j v : S (NDiv i a (NConst j v)) -> finite64 v -> fval v <> 0.
  Proof.
    intros Hs Hv. destruct (Hcan _ Hs _ (sub_refl _)) as (_ & Hz). apply finite_fin in Hv.
    change (SFeqb v (flit 0) = false) in Hz. rewrite (feqb_fin v _ Hv fin_flit0), fval_flit0 in Hz. intros Z. rewrite Z in Hz.
    destruct (Req_bool_spec 0 0); [discriminate Hz|congruence].
  Qed.

  Lemma safe_sv x m k f y e : sv x f m k -> sv y (e_val e r) (e_mag e r) (e_ops e) -> safe_denominator y e r ->
    sv (SFdiv 53 1024 x y) (f / e_val e r) (m * (2 * e_mag e r / (e_val e r * e_val e r)) + tiny) (k + e_ops e + 1).
  Proof. intros Sx Sy (Hf & Hn & Hs). apply sv_quot; auto. split; [exact (sv_vb _ _ _ _ Sy)|exact Hf]. Qed.
  Lemma sv_sin_ x f m k : accurate fsin sin -> sv x f m k -> sv (fsin x) (sin f) (m + 1) (k + 1).
  Proof. intros Hg. apply sv_fun; [exact Hg| |exact sin_lip]. intros a. apply Rabs_le. apply SIN_bound. Qed.
  Lemma sv_cos_ x f m k : accurate fcos cos -> sv x f m k -> sv (fcos x) (cos f) (m + 1) (k + 1).
  Proof. intros Hg. apply sv_fun; [exact Hg| |exact cos_lip]. intros a. apply Rabs_le. apply COS_bound. Qed.
  Lemma est_good der n : S n -> okn der n -> gd n (est_of n).
  Proof.
    induction n as [i w|i st kd|i args IH|i a IH|i a b IHa IHb|i a b IHa IHb|i a IH] using node_ind'; intros Hs Ha; try (destruct Ha; fail).
    - apply est_const_good. exact Ha.
    - apply reads_var. exact Hr.
    - apply fine_args in Ha. cbn [est_of].
      assert (Hin : forall a, In a args -> notsum a /\ sv (ev a) (e_val (est_of a) r) (e_mag (est_of a) r) (e_ops (est_of a))).
      { intros a Hin. split; [exact (args_notsum i args a Hs Hin)|]. apply good_sv. rewrite Forall_forall in IH, Ha.
        apply IH; [exact Hin|apply (Hclosed _ _ Hs); exact Hin|apply Ha; exact Hin]. }
      exists (sumN (map (fun a => e_ops (est_of a)) args)), (map (fun a => (e_val (est_of a) r, e_mag (est_of a) r)) args). cbn [terms].
      split; [destruct (Hcan _ Hs _ (sub_refl _)) as (_ & Hl & _); intros ->; cbn in Hl; lia|]. split; [|split; [|split]].
      + clear Ha IH Hs. assert (Hle : forall a, In a args -> (e_ops (est_of a) <= sumN (map (fun a => e_ops (est_of a)) args))%nat).
        { clear Hin. induction args as [|x l IHl]; intros a Ha; [destruct Ha|]. cbn [map sumN]. destruct Ha as [<- |Ha]; [lia|]. specialize (IHl a Ha). lia. }
        revert Hin Hle. generalize (sumN (map (fun a => e_ops (est_of a)) args)) as K. intros K. induction args as [|x l IHl]; intros Hin Hle; constructor.
        * destruct (Hin x (or_introl eq_refl)) as [H1 H2]. split; [exact H1|]. eapply sv_weak; [exact H2|apply Rle_refl|apply Hle; left; reflexivity].
        * apply IHl; intros a Ha; [apply Hin|apply Hle]; right; exact Ha.
      + rewrite e_sum_val, map_map, map_map. reflexivity.
      + rewrite e_sum_mag, map_map, map_map. cbn [snd]. lra.
      + rewrite e_sum_ops, map_map. clear. induction args as [|x l IHl]; cbn [map sumN length]; [lia|]. lia.
    - destruct Ha as (_ & Hc & Ha). cbn [est_of e_cos e_val e_mag e_ops]. apply sv_good; [exact I|]. cbn [evaluate]. apply sv_cos_; [exact Hc|].
      apply good_sv. apply IH; [apply (Hclosed _ _ Hs); left; reflexivity|exact Ha].
    - destruct (const_or b) as [Cb|(j & v & ->)].
      { rewrite fine_div in Ha by exact Cb. destruct Ha as (Ha & Hb & Hd & _). rewrite est_div by exact Cb. cbn [e_quot e_val e_mag e_ops]. apply sv_good; [exact I|]. cbn [evaluate].
        apply safe_sv; [|apply good_sv; apply IHb; [apply (Hclosed _ _ Hs); right; left; reflexivity|exact Hb]|exact Hd].
        apply good_sv; apply IHa; [apply (Hclosed _ _ Hs); left; reflexivity|exact Ha]. }
      destruct Ha as [Ha Hv]. cbn [est_of e_div e_val e_mag e_ops].
      pose proof (div_const _ _ _ _ Hs Hv) as Hz. rewrite !float_value_fval. apply sv_good; [exact I|]. cbn [evaluate]. rewrite Nat.add_1_r.
      apply sv_div; [apply good_sv; apply IHa; [apply (Hclosed _ _ Hs); left; reflexivity|exact Ha]|apply finite_fin; exact Hv|exact Hz].
    - destruct Ha as [Ha Hb]. cbn [est_of e_mul e_val e_mag e_ops]. apply good_prod; [exact I|]. cbn [evaluate].
      apply sv_mul; apply good_sv; [apply IHa|apply IHb]; auto; apply (Hclosed _ _ Hs); cbn; auto.
    - destruct Ha as (Hc & _ & Ha). cbn [est_of e_sin e_val e_mag e_ops]. apply sv_good; [exact I|]. cbn [evaluate]. apply sv_sin_; [exact Hc|].
      apply good_sv. apply IH; [apply (Hclosed _ _ Hs); left; reflexivity|exact Ha].
  Qed.
  Lemma sin_n_good a e d k k' : accurate fsin sin -> gd a e -> @Node.sin_n F NF a k = Ok (d, k') -> gd d (e_sin e).
  Proof.
    intros Hc G E. apply good_sv in G. assert (Hd : notsum d /\ ev d = fsin (ev a)).
    { unfold Node.sin_n in E. destruct a; unfold mk_const, mk_sin in E; injection E as <- _; split; try exact I; reflexivity. }
    destruct Hd as [Hn Hd]. apply sv_good; [exact Hn|]. rewrite Hd. cbn [e_sin e_val e_mag e_ops]. apply sv_sin_; assumption.
  Qed.
  Lemma cos_n_good a e d k k' : accurate fcos cos -> gd a e -> @Node.cos_n F NF a k = Ok (d, k') -> gd d (e_cos e).
  Proof.
    intros Hc G E. apply good_sv in G. assert (Hd : notsum d /\ ev d = fcos (ev a)).
    { unfold Node.cos_n in E. destruct a; unfold mk_const, mk_cos in E; injection E as <- _; split; try exact I; reflexivity. }
    destruct Hd as [Hn Hd]. apply sv_good; [exact Hn|]. rewrite Hd. cbn [e_cos e_val e_mag e_ops]. apply sv_cos_; assumption.
  Qed.
  (** [1 / b] and [- a / (b * b)] for a [b] that is not a constant. *)
  Lemma inverse_good b e d k k' : is_constant b = false -> gd b e -> safe_denominator (ev b) e r -> @div_sn F NF (@n1 F NF) b k = Ok (d, k') -> gd d (e_quot (e_const (flit 1)) e).
  Proof.
    intros Cb G Hs E. apply good_sv in G. assert (Hd : notsum d /\ ev d = SFdiv 53 1024 (flit 1) (ev b)).
    { unfold div_sn in E. assert (Cw : forall v, is_constant_with_value b v = false) by (intros v; destruct b; try reflexivity; discriminate Cb).
      rewrite !Cw, Cb in E. destruct (@neqb F NF (@n1 F NF) (@n0 F NF)) eqn:E1; [discriminate E1|].
      apply bind_ok in E as (c & k1 & E2 & E3). unfold mk_const in E2.
      pose proof (f_equal (fun q => match q with Ok (a, _) => a | Panic _ => c end) E2) as Ec. change (NConst k (flit 1) = c) in Ec. subst c. unfold mk_div in E3. injection E3 as <- _. split; [exact I|reflexivity]. }
    destruct Hd as [Hn Hd]. apply sv_good; [exact Hn|]. rewrite Hd. cbn [e_quot e_val e_mag e_ops]. apply safe_sv; [|exact G|exact Hs].
    refine (good_sv fsin fcos vs (NConst 0 (flit 1)) _ _ _ _). apply est_const_good. split; reflexivity.
  Qed.
  Lemma square_div_good a b ea eb d k k' : is_constant b = false -> gd a ea -> gd b eb -> safe_denominator (SFmul 53 1024 (ev b) (ev b)) (e_mul eb eb) r ->
    bind (@neg_n F NF a) (fun x => bind (@mul_nn F NF b b) (fun y => @div_nn F NF x y)) k = Ok (d, k') -> gd d (e_quot (e_neg ea) (e_mul eb eb)).
  Proof.
    intros Cb Ga Gb Hs E. apply bind_ok in E as (x & k1 & E1 & E). apply bind_ok in E as (y & k2 & E2 & E3).
    pose proof (neg_n_good fsin fcos vs a _ _ _ x k k1 Ga E1) as Gx. pose proof (mul_nn_good fsin fcos vs b b _ _ _ _ _ _ y k1 k2 Gb Gb E2) as Gy.
    assert (Hy : (exists i, y = NMul i b b) \/ exists i l, b = NAdd i l).
    { destruct b as [i w|i s kd|i l|i z|i z z'|i z z'|i z]; try discriminate Cb; try (right; eauto; fail); left; cbn in E2; injection E2 as <- _; eauto. }
    assert (Hyy : y = NMul (nid y) b b).
    { destruct Hy as [[i ->]|(i & l & ->)]; [reflexivity|]. cbn in E2. injection E2 as <- _. reflexivity. }
    assert (Ey : ev y = SFmul 53 1024 (ev b) (ev b)) by (rewrite Hyy; reflexivity).
    assert (Cy : is_constant y = false) by (rewrite Hyy; reflexivity). assert (Cw : forall v, is_constant_with_value y v = false) by (intros v; rewrite Hyy; reflexivity).
    apply good_sv in Gy. rewrite <- Ey in Hs. pose proof (safe_sv _ _ _ _ _ (e_mul eb eb) (good_sv _ _ _ _ _ _ _ Gx) Gy Hs) as Sq.
    unfold div_nn in E3. rewrite !Cw, Cy, andb_false_r in E3. change (@n0 F NF) with (flit 0) in E3.
    destruct (is_constant_with_value x (flit 0)) eqn:Ex.
    - unfold mk_const in E3. pose proof (f_equal (fun q => match q with Ok (a, _) => a | Panic _ => d end) E3) as Ed. change (NConst k2 (flit 0) = d) in Ed. subst d.
      destruct (const0 fsin fcos vs x _ _ _ 0 ltac:(cbn; lia) Gx Ex) as (i & w & -> & Sw & Fw & Vw). apply sv_good; [exact I|]. cbn [evaluate] in *.
      destruct Sq as [Vq Aq Eq]. cbn [e_quot e_neg e_val e_mag e_ops]. constructor; [apply fin_flit0|exact Aq|]. intros _.
      assert (Hz : fin (SFdiv 53 1024 w (ev y)) /\ fval (SFdiv 53 1024 w (ev y)) = 0).
      { destruct Hs as (Hfy & Hny & Hsy). assert (Fy : fin (ev y)) by (split; [exact (sv_vb _ _ _ _ Gy)|exact Hfy]).
        assert (Ny : fval (ev y) <> 0).
        { intros Z. destruct Gy as [_ _ Er]. specialize (Er Fy). rewrite Z in Er. change (e_val (e_mul eb eb) r) with (e_val eb r * e_val eb r) in *. unfold error_bound in Hsy.
          change ((1 + u) ^ e_ops (e_mul eb eb) - 1) with (gam (e_ops (e_mul eb eb))) in Hsy.
          replace (0 - e_val eb r * e_val eb r) with (- (e_val eb r * e_val eb r)) in Er by ring. rewrite Rabs_Ropp in Er. pose proof (Rabs_pos_lt _ Hny). 
          change (many (e_ops eb) (e_ops eb)) with (INR ((e_ops eb + 1) * (e_ops eb + 1)) * tiny) in Er. cbn [e_mul e_ops e_mag] in Hsy. lra. }
        destruct w as [sw|sw| |sw mw ew]; try (destruct Fw as [_ Fw]; discriminate Fw).
        - destruct (ev y) as [sy|sy| |sy my ey]; try (destruct Fy as [_ Fy]; discriminate Fy); [exfalso; apply Ny; reflexivity|]. split; [split; reflexivity|reflexivity].
        - exfalso. destruct (fin_sign _ Fw) as [[(s & Q) _]|[(m & e & Q & V)|(m & e & Q & V)]]; [discriminate Q|lra|lra]. }
      destruct Hz as [Hz Vz]. specialize (Eq Hz). rewrite Vz in Eq. rewrite fval_flit0. exact Eq.
    - unfold mk_div in E3. injection E3 as <- _. apply sv_good; [exact I|]. exact Sq.
  Qed.

  Lemma good_same n f m k v i : good fsin fcos vs n f m k -> is_constant_with_value n v = true -> (exists z, (Z.abs z <= 2 ^ 53)%Z /\ v = flit z) ->
    good fsin fcos vs (NConst i v) f m k.
  Proof.
    intros G E (z & Hz & ->). destruct (const0 fsin fcos vs n f m k z Hz G E) as (j & w & -> & Sv & Fw & Vw).
    apply sv_good; [exact I|]. cbn [evaluate]. destruct Sv as [_ A B]. destruct (flit_int z Hz) as [Fz Vz]. constructor; [apply Fz|exact A|].
    intros _. rewrite Vz, <- Vw. apply B. exact Fw.
  Qed.
  Lemma one_good p f m k i n st st' : good fsin fcos vs p f m k -> @mul_nn F NF p (NConst i (flit 1)) st = Ok (n, st') -> good fsin fcos vs n f m k.
  Proof.
    intros G E. unfold mul_nn in E. change (@n0 F NF) with (flit 0) in E. change (@n1 F NF) with (flit 1) in E.
    replace (is_constant_with_value (NConst i (flit 1)) (flit 0)) with false in E by reflexivity.
    replace (is_constant_with_value (NConst i (flit 1)) (flit 1)) with true in E by reflexivity. rewrite orb_false_r in E.
    destruct (is_constant_with_value p (flit 0)) eqn:E0.
    { unfold mk_const in E. injection E as <- _. eapply good_same; [exact G|exact E0|]. exists 0%Z. split; [cbn; lia|reflexivity]. }
    destruct (is_constant_with_value p (flit 1)) eqn:E1; unfold ret in E; injection E as <- _; [|exact G].
    eapply good_same; [exact G|exact E1|]. exists 1%Z. split; [cbn; lia|reflexivity].
  Qed.

  (** One step down a path. *)
  Definition step (p : node F) (pr : node F * node F) : M (node F) := bind (@partial F NF (fst pr) (snd pr)) (fun d => @mul_nn F NF p d).
  Definition leads (path : list (node F)) (acc e : est) : Prop :=
    forall p k q k', gd p acc -> foldM step (windows2 path) p k = Ok (q, k') -> gd q e.

  Lemma same_node a b : S a -> S b -> ptr_eq a b = true -> a = b.
  Proof. intros Ha Hb E. apply (Hcoh _ _ Ha Hb). unfold ptr_eq in E. destruct a, b; try discriminate E; apply Nat.eqb_eq in E; exact E. Qed.
  Lemma ptr_refl (a : node F) : ptr_eq a a = true.
  Proof. destruct a; cbn; apply Nat.eqb_refl. Qed.

  Lemma cons_leads n c q acc acc' e : (forall p k d k1 x k2, gd p acc -> @partial F NF n c k = Ok (d, k1) -> @mul_nn F NF p d k1 = Ok (x, k2) -> gd x acc') ->
    leads (c :: q) acc' e -> leads (n :: c :: q) acc e.
  Proof.
    intros H1 H2 p k x k' G E. cbn [windows2] in E. apply foldM_cons_ok in E as (y & k1 & E1 & E2). unfold step in E1. cbn [fst snd] in E1.
    apply bind_ok in E1 as (d & k2 & E3 & E4). eapply H2; [|exact E2]. eapply H1; eauto.
  Qed.
  Lemma heads_lead n x v acc acc' : (forall p k d k1 z k2, gd p acc -> @partial F NF n x k = Ok (d, k1) -> @mul_nn F NF p d k1 = Ok (z, k2) -> gd z acc') ->
    forall l, Forall2 (fun p e => leads p acc' e) (rpaths v x) l -> Forall2 (fun p e => leads p acc e) (map (cons n) (rpaths v x)) l.
  Proof.
    intros Hp l Fl. assert (Hh : forall p, In p (rpaths v x) -> exists q, p = x :: q) by (intros p; apply rpaths_head).
    revert Fl Hh. generalize (rpaths v x) as ps. intros ps Fl. induction Fl as [|p e ps l Hpe Fl IHf]; intros Hh; [constructor|].
    cbn [map]. constructor; [|apply IHf; intros p0 H0; apply Hh; right; exact H0].
    destruct (Hh p (or_introl eq_refl)) as [q ->]. eapply cons_leads; [exact Hp|exact Hpe].
  Qed.
  Lemma paths_lead c v n : is_var v = true -> nid v = c -> S n -> okn true n ->
    forall acc, exists l, Permutation l (occurrence_terms c n acc) /\ Forall2 (fun p e => leads p acc e) (rpaths v n) l.
  Proof.
    intros Hv Hc. induction n as [i w|i st kd|i args IH|i a IH|i a b IHa IHb|i a b IHa IHb|i a IH] using node_ind'; intros Hs Ha acc; try (destruct Ha; fail).
    - exists []. cbn [rpaths is_var andb occurrence_terms]. split; constructor.
    - cbn [rpaths occurrence_terms]. destruct v as [| j st' kd'| | | | | ]; try discriminate Hv. cbn [is_var andb ptr_eq nid] in *.
      subst c. destruct (i =? j)%nat eqn:E.
      + exists [acc]. split; [apply Permutation_refl|]. constructor; [|constructor]. intros p k q k' G E1. cbn in E1. injection E1 as <- _. exact G.
      + exists []. split; constructor.
    - apply fine_args in Ha. rewrite rpaths_eq. cbn [is_var andb app arguments occurrence_terms].
      assert (Hin : forall a, In a args -> exists l, Permutation l (occurrence_terms c a acc) /\ Forall2 (fun p e => leads p acc e) (map (cons (NAdd i args)) (rpaths v a)) l).
      { intros a Hin. rewrite Forall_forall in IH, Ha. pose proof (Hclosed _ _ Hs Hin) as Sa. destruct (IH a Hin Sa (Ha a Hin) acc) as (l & Pl & Fl).
        exists l. split; [exact Pl|].
        assert (Hh : forall p, In p (rpaths v a) -> exists q, p = a :: q) by (intros p; apply rpaths_head).
        revert Fl Hh. generalize (rpaths v a) as ps. clear -Hin Hr. intros ps Fl. induction Fl as [|p e ps l Hp Fl IHf]; intros Hh; [constructor|].
        cbn [map]. constructor; [|apply IHf; intros p0 H0; apply Hh; right; exact H0].
        destruct (Hh p (or_introl eq_refl)) as [q ->]. apply cons_leads with (acc' := acc); [|exact Hp].
        intros p0 k d k1 x k2 G E1 E2. cbn [partial] in E1.
        replace (existsb (fun a0 => ptr_eq a0 a) args) with true in E1 by (symmetry; apply existsb_exists; exists a; split; [exact Hin|apply ptr_refl]).
        unfold mk_const in E1. injection E1 as <- _. eapply one_good; [exact G|exact E2]. }
      clear IH Hs Ha. revert Hin. generalize (NAdd i args) as n. intros n Hin.
      induction args as [|a l IHl]; [exists []; split; constructor|].
      destruct IHl as (l1 & P1 & F1); [intros x Hx; apply Hin; right; exact Hx|]. destruct (Hin a (or_introl eq_refl)) as (l2 & P2 & F2).
      exists (l1 ++ l2). cbn [rev flat_map]. split; [eapply Permutation_trans; [apply Permutation_app_comm|apply Permutation_app; assumption]|].
      rewrite map_app, concat_app. apply Forall2_app; [exact F1|]. cbn [map concat]. rewrite app_nil_r. exact F2.
    - destruct Ha as (Hc1 & _ & Ha). cbn [rpaths is_var andb occurrence_terms].
      assert (Sa : S a) by (apply (Hclosed _ _ Hs); left; reflexivity). pose proof (est_good true a Sa Ha) as Ga.
      destruct (IH Sa Ha (e_mul acc (e_neg (e_sin (est_of a))))) as (l & Pl & Fl). exists l. split; [exact Pl|].
      apply heads_lead with (acc' := e_mul acc (e_neg (e_sin (est_of a)))); [|exact Fl].
      intros p0 k d k1 z k2 G E1 E2. cbn [partial] in E1. rewrite ptr_refl in E1. apply bind_ok in E1 as (s & k3 & E1 & E3).
      pose proof (sin_n_good a _ s _ _ Hc1 Ga E1) as Gs. pose proof (neg_n_good fsin fcos vs s _ _ _ d _ _ Gs E3) as Gd.
      exact (mul_nn_good fsin fcos vs p0 d _ _ _ _ _ _ z k1 k2 G Gd E2).
    - destruct (const_or b) as [Cb|(j & w & ->)].
      { rewrite fine_div in Ha by exact Cb. destruct Ha as (Ha & Hb & Hd & Hder). destruct (Hder eq_refl) as [Hne Hsq]. clear Hder.
        assert (Sa : S a) by (apply (Hclosed _ _ Hs); left; reflexivity).
        assert (Sb : S b) by (apply (Hclosed _ _ Hs); right; left; reflexivity).
        pose proof (est_good true a Sa Ha) as Ga. pose proof (est_good true b Sb Hb) as Gb. rewrite terms_div by exact Cb.
        destruct (IHa Sa Ha (e_mul acc (e_quot (e_const (flit 1)) (est_of b)))) as (l1 & P1 & F1).
        destruct (IHb Sb Hb (e_mul acc (e_quot (e_neg (est_of a)) (e_mul (est_of b) (est_of b))))) as (l2 & P2 & F2).
        exists (l2 ++ l1). split; [eapply Permutation_trans; [apply Permutation_app_comm|apply Permutation_app; assumption]|].
        change (Forall2 (fun p e => leads p acc e) (map (cons (NDiv i a b)) (rpaths v b) ++ map (cons (NDiv i a b)) (rpaths v a)) (l2 ++ l1)).
        apply Forall2_app.
        - apply heads_lead with (acc' := e_mul acc (e_quot (e_neg (est_of a)) (e_mul (est_of b) (est_of b)))); [|exact F2].
          intros p0 k d k1 z k2 G E1 E2. cbn [partial] in E1.
          assert (Eab : ptr_eq a b = false) by (destruct (ptr_eq a b) eqn:Q; [|reflexivity]; exfalso; apply Hne; f_equal; apply same_node; assumption).
          rewrite Eab, ptr_refl in E1. pose proof (square_div_good a b _ _ d _ _ Cb Ga Gb Hsq E1) as Gd.
          exact (mul_nn_good fsin fcos vs p0 d _ _ _ _ _ _ z k1 k2 G Gd E2).
        - apply heads_lead with (acc' := e_mul acc (e_quot (e_const (flit 1)) (est_of b))); [|exact F1].
          intros p0 k d k1 z k2 G E1 E2. cbn [partial] in E1. rewrite ptr_refl in E1. pose proof (inverse_good b _ d _ _ Cb Gb Hd E1) as Gd.
          exact (mul_nn_good fsin fcos vs p0 d _ _ _ _ _ _ z k1 k2 G Gd E2). }
      destruct Ha as [Ha Hw]. cbn [rpaths is_var andb occurrence_terms].
      assert (Sa : S a) by (apply (Hclosed _ _ Hs); left; reflexivity).
      destruct (IHa Sa Ha (e_mul acc (e_div (e_const (flit 1)) w))) as (l & Pl & Fl). exists l. split; [exact Pl|]. clear Pl. cbn [map app].
      assert (Hh : forall p, In p (rpaths v a) -> exists q, p = a :: q) by (intros p; apply rpaths_head).
      pose proof (div_const _ _ _ _ Hs Hw) as Hz. apply finite_fin in Hw.
      revert Fl Hh. generalize (rpaths v a) as ps. intros ps Fl. induction Fl as [|p e ps l0 Hp Fl IHf]; intros Hh; [constructor|].
      cbn [map]. constructor; [|apply IHf; intros p0 H0; apply Hh; right; exact H0].
      destruct (Hh p (or_introl eq_refl)) as [q ->]. eapply cons_leads; [|exact Hp].
      intros p0 k d k1 x k2 G E1 E2. cbn [partial] in E1. rewrite ptr_refl in E1.
      assert (Gd : gd d (e_div (e_const (flit 1)) w)).
      { cbn [e_div e_const e_val e_mag e_ops]. rewrite !float_value_fval. destruct (flit_int 1 ltac:(cbn; lia)) as [F1 V1].
        unfold div_sn in E1. change (@n0 F NF) with (flit 0) in E1. change (@n1 F NF) with (flit 1) in E1. pose proof tiny_pos.
        destruct (is_constant_with_value (NConst j w) (flit 0)); [discriminate E1|].
        pose proof (sv_div (flit 1) _ _ 0 w (sv_exact _ F1) Hw Hz) as Sd.
        destruct (is_constant_with_value (NConst j w) (flit 1)) eqn:Ew.
        - assert (Ed : d = NConst k (flit 1)) by (unfold mk_const in E1; injection E1 as <- _; reflexivity). clear E1. subst d. cbn [is_constant_with_value] in Ew. destruct (neqb_fin w 1 ltac:(cbn; lia) (proj1 Hw) Ew) as [_ Vw].
          apply sv_good; [exact I|]. cbn [evaluate]. rewrite Vw, V1, Rabs_R1. unfold Rdiv. rewrite Rinv_1, Rmult_1_l. constructor; [apply F1|rewrite Rabs_R1; lra|].
          intros _. rewrite V1, Rminus_diag_eq, Rabs_R0 by reflexivity. apply Rmult_le_pos; [apply gam_pos|lra].
        - cbn [is_constant] in E1. replace (@neqb F NF (flit 1) (flit 0)) with false in E1 by reflexivity. unfold mk_const in E1. injection E1 as <- _.
          apply sv_good; [exact I|]. exact Sd. }
      exact (mul_nn_good fsin fcos vs p0 d _ _ _ _ _ _ x k1 k2 G Gd E2).
    - destruct Ha as [Ha Hb]. cbn [rpaths is_var andb occurrence_terms].
      assert (Sa : S a) by (apply (Hclosed _ _ Hs); left; reflexivity).
      assert (Sb : S b) by (apply (Hclosed _ _ Hs); right; left; reflexivity).
      pose proof (est_good true a Sa Ha) as Ga. pose proof (est_good true b Sb Hb) as Gb.
      assert (Hgen : forall x y, (x = a /\ y = b) \/ (x = b /\ y = a) -> forall l, Forall2 (fun p e => leads p (e_mul acc (est_of y)) e) (rpaths v x) l ->
          Forall2 (fun p e => leads p acc e) (map (cons (NMul i a b)) (rpaths v x)) l).
      { intros x y Hxy l Fl.
        assert (Gy : gd y (est_of y)) by (destruct Hxy as [[_ ->]|[_ ->]]; assumption).
        assert (Hp : forall k d k1, @partial F NF (NMul i a b) x k = Ok (d, k1) -> d = y /\ k1 = k).
        { intros k d k1 E1. cbn [partial] in E1. destruct Hxy as [[-> ->]|[-> ->]].
          - rewrite ptr_refl in E1. injection E1 as <- <-. auto.
          - destruct (ptr_eq a b) eqn:Eab.
            + apply same_node in Eab; [|exact Sa|exact Sb]. injection E1 as <- <-. auto.
            + rewrite ptr_refl in E1. injection E1 as <- <-. auto. }
        assert (Hh : forall p, In p (rpaths v x) -> exists q, p = x :: q) by (intros p; apply rpaths_head).
        revert Fl Hh. generalize (rpaths v x) as ps. intros ps Fl. induction Fl as [|p e ps l Hpe Fl IHf]; intros Hh; [constructor|].
        cbn [map]. constructor; [|apply IHf; intros p0 H0; apply Hh; right; exact H0].
        destruct (Hh p (or_introl eq_refl)) as [q ->]. eapply cons_leads; [|exact Hpe].
        intros p0 k d k1 z k2 G E1 E2. destruct (Hp _ _ _ E1) as [-> ->]. exact (mul_nn_good fsin fcos vs p0 y _ _ _ _ _ _ z k k2 G Gy E2). }
      destruct (IHa Sa Ha (e_mul acc (est_of b))) as (l1 & P1 & F1). destruct (IHb Sb Hb (e_mul acc (est_of a))) as (l2 & P2 & F2).
      exists (l2 ++ l1). split; [eapply Permutation_trans; [apply Permutation_app_comm|apply Permutation_app; assumption]|].
      change (Forall2 (fun p e => leads p acc e) (map (cons (NMul i a b)) (rpaths v b) ++ map (cons (NMul i a b)) (rpaths v a)) (l2 ++ l1)).
      apply Forall2_app; [apply (Hgen b a); auto|apply (Hgen a b); auto].
    - destruct Ha as (_ & Hc1 & Ha). cbn [rpaths is_var andb occurrence_terms].
      assert (Sa : S a) by (apply (Hclosed _ _ Hs); left; reflexivity). pose proof (est_good true a Sa Ha) as Ga.
      destruct (IH Sa Ha (e_mul acc (e_cos (est_of a)))) as (l & Pl & Fl). exists l. split; [exact Pl|].
      apply heads_lead with (acc' := e_mul acc (e_cos (est_of a))); [|exact Fl].
      intros p0 k d k1 z k2 G E1 E2. cbn [partial] in E1. rewrite ptr_refl in E1. pose proof (cos_n_good a _ d _ _ Hc1 Ga E1) as Gd.
      exact (mul_nn_good fsin fcos vs p0 d _ _ _ _ _ _ z k1 k2 G Gd E2).
  Qed.

  Lemma good_n0 i : gd (NConst i (flit 0)) (e_const (flit 0)).
  Proof. apply est_const_good. split; reflexivity. Qed.
  Lemma path_sum_good ps l : Forall2 (fun p e => leads p (e_const (flit 1)) e) ps l ->
    forall acc d k q k', gd d acc -> foldM (fun d path => bind (@path_prod F NF path) (fun prod => @add_nn F NF d prod)) ps d k = Ok (q, k') ->
    good fsin fcos vs q (e_val acc r + tot (map (fun e => e_val e r) l)) (e_mag acc r + tot (map (fun e => e_mag e r) l))
         (e_ops acc + sumN (map (fun e => (e_ops e + 1)%nat) l)).
  Proof.
    intros Fl. induction Fl as [|p e ps l Hp Fl IH]; intros acc d k q k' G E.
    - cbn in E. injection E as <- _. cbn [map tot sumN]. rewrite !Rplus_0_r, Nat.add_0_r. exact G.
    - apply foldM_cons_ok in E as (d1 & k1 & E1 & E2). apply bind_ok in E1 as (pd & k2 & E1 & E3).
      unfold path_prod in E1. apply bind_ok in E1 as (one & k3 & E1 & E4). unfold mk_const in E1. injection E1 as <- <-.
      assert (Gp : gd pd e).
      { refine (Hp _ _ _ _ _ E4). apply est_const_good. split; reflexivity. }
      pose proof (add_nn_good fsin fcos vs d pd _ _ _ _ _ _ d1 _ _ G Gp E3) as G1.
      assert (G1' : gd d1 (e_add acc e)) by exact G1.
      pose proof (IH (e_add acc e) d1 k1 q k' G1' E2) as G2. cbn [e_add e_val e_mag e_ops] in G2. cbn [map tot sumN].
      replace (e_val acc r + (e_val e r + tot (map (fun e0 => e_val e0 r) l))) with (e_val acc r + e_val e r + tot (map (fun e0 => e_val e0 r) l)) by ring.
      eapply good_weak; [exact G2|lra|lia].
  Qed.
  Lemma derivative_good n v d k k' : is_var v = true -> S n -> okn true n -> @path_sum F NF (rpaths v n) k = Ok (d, k') -> gd d (derivative_est (nid v) n).
  Proof.
    intros Hv Hs Ha E. destruct (paths_lead (nid v) v n Hv eq_refl Hs Ha (e_const (flit 1))) as (l & Pl & Fl).
    unfold path_sum in E. apply bind_ok in E as (z & k1 & E1 & E2). unfold mk_const in E1. injection E1 as <- <-.
    pose proof (path_sum_good _ _ Fl _ _ _ _ _ (good_n0 k) E2) as G. unfold derivative_est. rewrite e_sum_val, e_sum_mag, e_sum_ops.
    rewrite <- (tot_perm _ _ (Permutation_map (fun e => e_val e r) Pl)), <- (tot_perm _ _ (Permutation_map (fun e => e_mag e r) Pl)), <- (sumN_perm _ _ (Permutation_map (fun e => (e_ops e + 1)%nat) Pl)).
    cbn [e_const e_val e_mag e_ops] in G. replace (float_value (flit 0)) with 0 in G by reflexivity. rewrite Rabs_R0, !Rplus_0_l, Nat.add_0_l in G. exact G.
  Qed.
End Der.

(** *** The value of the estimate is the derivative. *)
Fixpoint dval (c : nat) (n : node F) (r : nat -> R) : R :=
  match n with
  | NVar i _ _ => if Nat.eqb i c then 1 else 0
  | NAdd _ args => fold_right (fun a s => dval c a r + s) 0 args
  | NMul _ a b => dval c a r * real_value b r + real_value a r * dval c b r
  | NDiv _ a (NConst _ v) => dval c a r / float_value v
  | NDiv _ a b => dval c a r * (1 / real_value b r) + dval c b r * (- real_value a r / (real_value b r * real_value b r))
  | NSin _ a => cos (real_value a r) * dval c a r
  | NCos _ a => - sin (real_value a r) * dval c a r
  | NConst _ _ => 0
  end.
Lemma dval_div c i a b r : is_constant b = false ->
  dval c (NDiv i a b) r = dval c a r * (1 / real_value b r) + dval c b r * (- real_value a r / (real_value b r * real_value b r)).
Proof. destruct b; try discriminate; reflexivity. Qed.
Lemma est_value n r : e_val (est_of n) r = real_value n r.
Proof.
  induction n as [i w|i st kd|i args IH|i a IH|i a b IHa IHb|i a b IHa IHb|i a IH] using node_ind'; try reflexivity.
  - cbn [est_of real_value]. rewrite e_sum_val, map_map. induction args as [|a l IHl]; [reflexivity|].
    cbn [map tot fold_right]. rewrite (Forall_inv IH), IHl; [reflexivity|exact (Forall_inv_tail IH)].
  - cbn [est_of e_cos e_val real_value]. rewrite IH. reflexivity.
  - destruct (const_or b) as [Cb|(j & v & ->)].
    + rewrite est_div by exact Cb. cbn [e_quot e_val real_value]. rewrite IHa, IHb. reflexivity.
    + cbn [est_of e_div e_val real_value]. rewrite IHa. reflexivity.
  - cbn [est_of e_mul e_val real_value]. rewrite IHa, IHb. reflexivity.
  - cbn [est_of e_sin e_val real_value]. rewrite IH. reflexivity.
Qed.
Lemma one_value : float_value (flit 1) = 1.
Proof. rewrite float_value_fval. destruct (flit_int 1 ltac:(cbn; lia)) as [_ ->]. reflexivity. Qed.
Lemma terms_value c n r : forall acc, tot (map (fun e => e_val e r) (occurrence_terms c n acc)) = e_val acc r * dval c n r.
Proof.
  induction n as [i w|i st kd|i args IH|i a IH|i a b IHa IHb|i a b IHa IHb|i a IH] using node_ind'; intros acc.
  - cbn. ring.
  - cbn [occurrence_terms dval]. destruct (Nat.eqb i c); cbn; ring.
  - cbn [occurrence_terms dval]. induction args as [|a l IHl]; [cbn; ring|].
    cbn [flat_map fold_right]. rewrite map_app, tot_app, (Forall_inv IH), IHl; [ring|exact (Forall_inv_tail IH)].
  - cbn [occurrence_terms dval]. rewrite IH. cbn [e_mul e_neg e_sin e_val]. rewrite est_value. ring.
  - destruct (const_or b) as [Cb|(j & v & ->)].
    + rewrite terms_div, dval_div by exact Cb. rewrite map_app, tot_app, IHa, IHb. cbn [e_mul e_quot e_neg e_const e_val]. rewrite !est_value, one_value. unfold Rdiv. ring.
    + cbn [occurrence_terms dval]. rewrite IHa. cbn [e_mul e_div e_const e_val]. rewrite one_value. unfold Rdiv. ring.
  - cbn [occurrence_terms dval]. rewrite map_app, tot_app, IHa, IHb. cbn [e_mul e_val]. rewrite !est_value. ring.
  - cbn [occurrence_terms dval]. rewrite IH. cbn [e_mul e_cos e_val]. rewrite est_value. ring.
Qed.
Lemma derivative_value c n r : e_val (derivative_est c n) r = dval c n r.
Proof. unfold derivative_est. rewrite e_sum_val, terms_value. cbn [e_const e_val]. rewrite one_value. ring. Qed.
Lemma value_same n r c : real_value n (set_cell r c (r c)) = real_value n r.
Proof.
  assert (Hc : forall i, set_cell r c (r c) i = r i) by (intros i; unfold set_cell; destruct (Nat.eqb i c) eqn:E; [apply Nat.eqb_eq in E as ->|]; reflexivity).
  induction n as [i w|i st kd|i args IH|i a IH|i a b IHa IHb|i a b IHa IHb|i a IH] using node_ind'; cbn [real_value]; try congruence.
  - induction args as [|a l IHl]; [reflexivity|]. cbn [fold_right]. rewrite (Forall_inv IH), IHl; [reflexivity|exact (Forall_inv_tail IH)].
Qed.
Lemma dval_derivative fsin fcos der vs c n r : fine fsin fcos der vs r n -> cell_derivative (real_value n) c r (dval c n r).
Proof.
  unfold cell_derivative.
  induction n as [i w|i st kd|i args IH|i a IH|i a b IHa IHb|i a b IHa IHb|i a IH] using node_ind'; intros Ha; cbn [dval real_value].
  - apply (derivable_pt_lim_const (float_value w)).
  - unfold set_cell. destruct (Nat.eqb i c); [apply derivable_pt_lim_id|apply (derivable_pt_lim_const (r i))].
  - apply fine_args in Ha. induction args as [|a l IHl]; [apply (derivable_pt_lim_const 0)|]. cbn [fold_right].
    apply (derivable_pt_lim_plus (fun t => real_value a (set_cell r c t)) (fun t => fold_right (fun a s => real_value a (set_cell r c t) + s) 0 l));
      [exact (Forall_inv IH (Forall_inv Ha))|apply IHl; [exact (Forall_inv_tail IH)|exact (Forall_inv_tail Ha)]].
  - destruct Ha as (_ & _ & Ha). pose proof (derivable_pt_lim_comp (fun t => real_value a (set_cell r c t)) cos (r c) _ _ (IH Ha) (derivable_pt_lim_cos _)) as Hm.
    cbn beta in Hm. rewrite value_same in Hm. exact Hm.
  - destruct (const_or b) as [Cb|(j & v & ->)].
    + rewrite fine_div in Ha by exact Cb. destruct Ha as (Ha & Hb & (_ & Hn & _) & _). rewrite est_value in Hn.
      pose proof (derivable_pt_lim_div (fun t => real_value a (set_cell r c t)) (fun t => real_value b (set_cell r c t)) (r c) _ _ (IHa Ha) (IHb Hb)) as Hm.
      cbn beta in Hm. rewrite !value_same in Hm. specialize (Hm Hn).
      match goal with |- derivable_pt_lim ?f ?x _ => change (derivable_pt_lim f x (dval c (NDiv i a b) r)) end. rewrite dval_div by exact Cb.
      replace (dval c a r * (1 / real_value b r) + dval c b r * (- real_value a r / (real_value b r * real_value b r)))
        with ((dval c a r * real_value b r - dval c b r * real_value a r) / Rsqr (real_value b r)) by (unfold Rsqr; field; exact Hn).
      exact Hm.
    + destruct Ha as [Ha _]. cbn [real_value]. unfold Rdiv.
      rewrite (Rmult_comm (dval c a r)).
      eapply derivable_pt_lim_ext; [|apply (derivable_pt_lim_scal (fun t => real_value a (set_cell r c t)) (/ float_value v) (r c) (dval c a r)); apply IHa; exact Ha].
      intros t. unfold mult_real_fct. ring.
  - destruct Ha as [Ha Hb]. pose proof (derivable_pt_lim_mult (fun t => real_value a (set_cell r c t)) (fun t => real_value b (set_cell r c t)) (r c) _ _ (IHa Ha) (IHb Hb)) as Hm.
    cbn beta in Hm. rewrite !value_same in Hm. exact Hm.
  - destruct Ha as (_ & _ & Ha). pose proof (derivable_pt_lim_comp (fun t => real_value a (set_cell r c t)) sin (r c) _ _ (IH Ha) (derivable_pt_lim_sin _)) as Hm.
    cbn beta in Hm. rewrite value_same in Hm. exact Hm.
Qed.
