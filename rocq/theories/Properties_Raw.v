(** Property C78: expressions put together without the operators. *)
From Verif Require Import Base Num Node NodeDiff NodeStd NodeInd ExprSpec World MapProofs EvalProofs StdPropProofs PathProofs DerivProofs
     DiffSpec DiffProofs PanicProofs GradProofs HessProofs CompProofs Api ApiProofs Properties_Expr Properties_Diff RawSpec.
From Coq Require Import Reals Lra Lia Permutation Floats.SpecFloat.
Local Open Scope R_scope.

Lemma ident_arg {T} (n c : node T) : In c (arguments n) -> identities n -> identities c.
Proof. intros Hc Hi a b Ha Hb. apply Hi; eapply sub_arg; eauto. Qed.
Lemma fov_arg {T} (n c : node T) : In c (arguments n) -> functions_of_variables n -> functions_of_variables c.
Proof. intros Hc Hi i a [Ha|Ha]; apply (Hi i); [left|right]; eapply sub_arg; eauto. Qed.
Lemma nsd_arg {T} (n c : node T) : In c (arguments n) -> no_self_division n -> no_self_division c.
Proof. intros Hc Hi i a b Ha. apply (Hi i). eapply sub_arg; eauto. Qed.

Section Keys.
  Context {T : Type} `{Num T}.
  (** ** C78 The keys of [std_properties().a] are the variables. *)
  Theorem C78_variables (n : node T) : identities n ->
    NoDup (map fst (p_a (std_properties n))) /\ forall v, In v (map fst (p_a (std_properties n))) <-> occurs v n.
  Proof.
    intros Hi. split; [apply (nodupk_NoDup ptr_eq); auto using ptr_eq_refl; apply keys_nodup|].
    intros v; split; [apply keys_occur|].
    intros Hv. pose proof (occurs_has _ _ Hv) as Hh. apply existsb_exists in Hh as (w & Hw & E).
    destruct Hv as [_ Hv]. destruct (keys_occur _ _ Hw) as [_ Hws]. rewrite (Hi v w Hv Hws E). exact Hw.
  Qed.
End Keys.

(** An expression without keys, whose functions are of variables, is affine. *)
Lemma no_keys {T} `{Num T} (n : node T) v : (length (p_a (std_properties n)) =? 0)%nat = true -> occurs v n -> False.
Proof.
  intros Hl Hv. apply Nat.eqb_eq, length_zero_iff_nil in Hl. pose proof (occurs_has _ _ Hv) as Hh. rewrite Hl in Hh. discriminate Hh.
Qed.
Lemma no_var_keys {T} `{Num T} (n : node T) : (forall v, ~ occurs v n) -> (length (p_a (std_properties n)) =? 0)%nat = true.
Proof.
  intros Hn. apply Nat.eqb_eq, length_zero_iff_nil. destruct (p_a (std_properties n)) as [|[v c] l] eqn:E; [reflexivity|].
  exfalso. apply (Hn v). apply keys_occur. rewrite E. left; reflexivity.
Qed.
Lemma no_var_affine {T} `{Num T} (n : node T) : functions_of_variables n -> (forall v, ~ occurs v n) -> p_affine (std_properties n) = true.
Proof.
  assert (Hno : forall (m c : node T), (forall v, ~ occurs v m) -> In c (arguments m) -> forall v, ~ occurs v c).
  { intros m c Hm Hc v [H1 H2]. apply (Hm v). split; [exact H1|]. eapply sub_arg; eauto. }
  induction n as [i w|i st kd|i args IH|i a IHa|i a b IHa IHb|i a b IHa IHb|i a IHa] using node_ind'; intros Hf Hn.
  - reflexivity.
  - reflexivity.
  - cbn [std_properties].
    assert (Hall : Forall (fun x => p_affine (std_properties x) = true) args).
    { rewrite Forall_forall in *. intros x Hx. apply IH; [exact Hx|exact (fov_arg (NAdd i args) x Hx Hf)|exact (Hno (NAdd i args) x Hn Hx)]. }
    clear IH Hf Hn. match goal with |- p_affine (fold_left ?f args _) = true => enough (G : forall acc, p_affine acc = true -> p_affine (fold_left f args acc) = true) by (apply G; reflexivity) end.
    induction Hall as [|x args Hx _ IH]; intros acc Ha; [exact Ha|]. cbn [fold_left]. apply IH. cbn [p_affine]. rewrite Ha, Hx. reflexivity.
  - destruct (Hf i a (or_intror (sub_refl _))) as [v Hv]. exfalso. exact (Hno (NCos i a) a Hn (or_introl eq_refl) v Hv).
  - cbn [std_properties p_affine]. rewrite IHa, no_var_keys; [reflexivity|exact (Hno (NDiv i a b) b Hn (or_intror (or_introl eq_refl)))|exact (fov_arg (NDiv i a b) a (or_introl eq_refl) Hf)|exact (Hno (NDiv i a b) a Hn (or_introl eq_refl))].
  - cbn [std_properties p_affine]. rewrite IHa, no_var_keys; [reflexivity|exact (Hno (NMul i a b) b Hn (or_intror (or_introl eq_refl)))|exact (fov_arg (NMul i a b) a (or_introl eq_refl) Hf)|exact (Hno (NMul i a b) a Hn (or_introl eq_refl))].
  - destruct (Hf i a (or_introl (sub_refl _))) as [v Hv]. exfalso. exact (Hno (NSin i a) a Hn (or_introl eq_refl) v Hv).
Qed.

(** ** C78 What is reported affine has the reported coefficients. *)
Theorem C78_affine (n : nodeX) (vs : valsX) : functions_of_variables n -> p_affine (std_properties n) = true ->
  evaluate vs n = x2 Rplus (xsum (map (fun kv => x2 Rmult (snd kv) (evaluate vs (fst kv))) (p_a (std_properties n)))) (p_b (std_properties n)).
Proof.
  change (functions_of_variables n -> p_affine (std_properties n) = true -> evaluate vs n = x2 Rplus (lin vs (p_a (std_properties n))) (p_b (std_properties n))).
  (* an expression without keys is its constant *)
  assert (Hconst : forall b : nodeX, (functions_of_variables b -> p_affine (std_properties b) = true -> evaluate vs b = x2 Rplus (lin vs (p_a (std_properties b))) (p_b (std_properties b))) ->
            functions_of_variables b -> (length (p_a (std_properties b)) =? 0)%nat = true -> evaluate vs b = p_b (std_properties b)).
  { intros b IH Hf Hl. rewrite IH; [|exact Hf|apply no_var_affine; [exact Hf|intros v Hv; exact (no_keys b v Hl Hv)]].
    apply Nat.eqb_eq, length_zero_iff_nil in Hl. rewrite Hl. apply xplus_0_l. }
  induction n as [i w|i st kd|i args IH|i a IHa|i a b IHa IHb|i a b IHa IHb|i a IHa] using node_ind'; intros Hf Haff.
  - symmetry; apply xplus_0_l.
  - cbn [std_properties p_a p_b]. rewrite lin_cons. cbn [fst snd].
    change (lin vs []) with (Some 0). change (n1 : X) with (Some 1). change (n0 : X) with (Some 0).
    destruct (evaluate vs (NVar i st kd)); cbn; auto. f_equal; lra.
  - rewrite evaluate_add.
    assert (HS : Forall (fun x => functions_of_variables x) args) by (apply Forall_forall; intros x Hx; exact (fov_arg (NAdd i args) x Hx Hf)).
    clear Hf. cbn [std_properties] in *. revert Haff.
    enough (G : forall acc, p_affine (fold_left (fun acc x =>
                   let p := std_properties x in
                   mk_std_prop (p_affine acc && p_affine p)
                               (fold_left merge_add (p_a p) (p_a acc))
                               (nadd (p_b acc) (p_b p))) args acc) = true ->
         let q := fold_left (fun acc x =>
                   let p := std_properties x in
                   mk_std_prop (p_affine acc && p_affine p)
                               (fold_left merge_add (p_a p) (p_a acc))
                               (nadd (p_b acc) (p_b p))) args acc in
         p_affine acc = true /\
         x2 Rplus (lin vs (p_a q)) (p_b q) =
         x2 Rplus (x2 Rplus (lin vs (p_a acc)) (p_b acc)) (xsum (map (evaluate vs) args))).
    { intros Haff. destruct (G _ Haff) as [_ G2]. cbn [p_a p_b] in G2.
      change (lin vs []) with (Some 0) in G2. change (n0 : X) with (Some 0) in G2.
      rewrite xplus_0_l, xplus_0_l in G2. symmetry; exact G2. }
    induction args as [|x args IHargs]; intros acc.
    + cbn. intros Ha. split; auto. change (xsum []) with (Some 0). rewrite xplus_0_r; reflexivity.
    + cbn [fold_left map]. intros Haff.
      inversion IH as [|? ? IHx IHl]; subst. inversion HS as [|? ? Sx Sl]; subst.
      destruct (IHargs IHl Sl _ Haff) as [Ha Hq]. cbn [p_affine p_a p_b] in Ha, Hq.
      apply andb_true_iff in Ha as [Ha1 Ha2]. split; auto.
      cbn zeta in *. rewrite Hq. rewrite lin_merge_fold by apply keys_var.
      rewrite xsum_cons, (IHx Sx Ha2). cbn [nadd NumX]. clear.
      generalize (xsum (map (evaluate vs) args)), (lin vs (p_a acc)), (p_b acc),
        (lin vs (p_a (std_properties x))), (p_b (std_properties x)).
      intros. repeat match goal with a : X |- _ => destruct a end; cbn; try reflexivity. f_equal; lra.
  - discriminate Haff.
  - cbn [std_properties p_affine p_a p_b] in *. apply andb_true_iff in Haff as [Ha Hb].
    pose proof (fov_arg (NDiv i a b) a (or_introl eq_refl) Hf) as Fa. pose proof (fov_arg (NDiv i a b) b (or_intror (or_introl eq_refl)) Hf) as Fb.
    cbn [evaluate]. rewrite (Hconst b IHb Fb Hb), (IHa Fa Ha). apply Nat.eqb_eq, length_zero_iff_nil in Hb. rewrite Hb. cbn [fold_left].
    rewrite (fold_insert_map (fun kv => ndiv (snd kv) (p_b (std_properties b)))) by apply keys_nodup.
    symmetry. generalize (p_b (std_properties b)) as c. intros c. apply (x_scale_gen vs (fun z => xdiv z c)); intros; unfold xdiv.
    + destruct c0, z, c; cbn; try reflexivity; destruct (Req_EM_T _ 0); cbn; try reflexivity. f_equal; field; auto.
    + destruct a0, b0, c; cbn; try reflexivity; destruct (Req_EM_T _ 0); cbn; try reflexivity. f_equal; field; auto.
  - cbn [std_properties p_affine p_a p_b] in *.
    pose proof (fov_arg (NMul i a b) a (or_introl eq_refl) Hf) as Fa. pose proof (fov_arg (NMul i a b) b (or_intror (or_introl eq_refl)) Hf) as Fb.
    apply orb_true_iff in Haff as [Haff|Haff]; apply andb_true_iff in Haff as [Ha Hb].
    + cbn [evaluate]. rewrite (Hconst b IHb Fb Hb), (IHa Fa Ha). apply Nat.eqb_eq, length_zero_iff_nil in Hb. rewrite Hb. cbn [fold_left].
      rewrite (fold_insert_map (fun kv => nmul (snd kv) (p_b (std_properties b)))) by apply keys_nodup.
      symmetry. generalize (p_b (std_properties b)) as c. intros c. apply (x_scale_gen vs (fun z => x2 Rmult z c)); intros; xring.
    + cbn [evaluate]. rewrite (Hconst a IHa Fa Hb), (IHb Fb Ha). apply Nat.eqb_eq, length_zero_iff_nil in Hb. rewrite Hb. cbn [fold_left].
      rewrite (fold_insert_map (fun kv => nmul (snd kv) (p_b (std_properties a)))) by apply keys_nodup.
      cbn [nmul NumX]. generalize (p_b (std_properties a)) as c. intros c.
      transitivity (x2 Rmult (x2 Rplus (lin vs (p_a (std_properties b))) (p_b (std_properties b))) c).
      { generalize (lin vs (p_a (std_properties b))), (p_b (std_properties b)). intros; xring. }
      symmetry.
      transitivity (x2 Rplus (lin vs (map (fun kv => (fst kv, x2 Rmult (snd kv) c)) (p_a (std_properties b))))
                             (x2 Rmult (p_b (std_properties b)) c)).
      { f_equal. generalize (p_b (std_properties b)); intros; xring. }
      apply (x_scale_gen vs (fun z => x2 Rmult z c)); intros; xring.
  - discriminate Haff.
Qed.
(** Without that condition it need not: [x * cos(0)], its cosine made by the constructor, is reported
    affine with coefficient 0. *)
Theorem C78_affine_refuted : exists (n : nodeX) (vs : valsX),
  identities n /\ p_affine (std_properties n) = true /\ evaluate vs n = Some 1 /\
  x2 Rplus (xsum (map (fun kv => x2 Rmult (snd kv) (evaluate vs (fst kv))) (p_a (std_properties n)))) (p_b (std_properties n)) = Some 0.
Proof.
  set (x := NVar 0 "x"%string VarContinuous : nodeX). exists (NMul 3 x (NCos 2 (NConst 1 (Some 0)))), [(x, Some 1)].
  split.
  { intros a b Ha Hb. unfold x in *.
    repeat match goal with
      | Hs : sub _ (NVar _ _ _) |- _ => inversion Hs; clear Hs; subst
      | Hs : sub _ (NConst _ _) |- _ => inversion Hs; clear Hs; subst
      | Hs : sub _ (NMul _ _ _) |- _ => inversion Hs; clear Hs; subst
      | Hs : sub _ (NCos _ _) |- _ => inversion Hs; clear Hs; subst
      | Hi : In _ _ |- _ => cbn [arguments In] in Hi
      | Hi : _ \/ _ |- _ => destruct Hi as [<-|Hi]
      | Hi : False |- _ => destruct Hi
      end; intros E; try reflexivity; discriminate E. }
  split; [reflexivity|]. split.
  - cbn. rewrite cos_0. f_equal. lra.
  - cbn. f_equal. lra.
Qed.

(** ** C78 First derivatives. *)
Theorem Dv_right (vs : valsX) (v n : nodeX) x0 z :
  identities n -> no_self_division n -> is_var v = true ->
  evaluate vs v = Some x0 -> evaluate vs n = Some z ->
  has_derivative (fun t => evaluate (upd vs v t) n) x0 (Dv vs v n).
Proof.
  intros Hi Hd Hvar Hv. revert z.
  induction n as [i w|i st kd|i args IH|i a IHa|i a b IHa IHb|i a b IHa IHb|i a IHa] using node_ind';
    intros z Hz; rewrite Dv_eq; cbn [is_var andb arguments map Rsum].
  - cbn in Hz. subst w. rewrite !Rplus_0_r. apply hd_const.
  - rewrite Rplus_0_r. destruct (ptr_eq (NVar i st kd) v) eqn:E.
    + eapply hd_ext; [intros t; symmetry; apply evaluate_upd_same; auto|]. apply hd_id.
    + eapply hd_ext; [intros t; symmetry; rewrite evaluate_upd_other by auto; exact Hz|]. apply hd_const.
  - rewrite Rplus_0_l. eapply hd_ext; [intros t; symmetry; apply evaluate_add|].
    apply (hd_xsum (fun a t => evaluate (upd vs v t) a) args x0 (fun c => 1 * Dv vs v c)).
    intros c Hc. rewrite Forall_forall in IH. rewrite Rmult_1_l.
    destruct (evaluate_arg vs (NAdd i args) c z Hc Hz) as [y Hy].
    eapply IH; [exact Hc|exact (ident_arg (NAdd i args) c Hc Hi)|exact (nsd_arg (NAdd i args) c Hc Hd)|exact Hy].
  - rewrite Rplus_0_l, Rplus_0_r. cbn [evaluate pv].
    assert (exists y, evaluate vs a = Some y) as [y Hy] by (eapply evaluate_arg; [|exact Hz]; cbn; auto).
    apply (hd_comp cos _ _ (rv vs a)).
    + rewrite evaluate_upd_self, (rv_some _ _ _ Hy); auto.
    + apply derivable_pt_lim_cos.
    + eapply IHa; [exact (ident_arg (NCos i a) a (or_introl eq_refl) Hi)|exact (nsd_arg (NCos i a) a (or_introl eq_refl) Hd)|exact Hy].
  - rewrite Rplus_0_l, Rplus_0_r. cbn [pv evaluate]. rewrite ptr_eq_refl.
    rewrite (Hd i a b (sub_refl _)).
    assert (exists y, evaluate vs a = Some y) as [ya Hya] by (eapply evaluate_arg; [|exact Hz]; cbn; auto).
    assert (exists y, evaluate vs b = Some y) as [yb Hyb] by (eapply evaluate_arg; [|exact Hz]; cbn; auto).
    assert (Hne : yb <> 0).
    { cbn [evaluate] in Hz. rewrite Hya, Hyb in Hz. cbn in Hz. destruct (Req_EM_T yb 0); [discriminate|auto]. }
    rewrite (rv_some _ _ _ Hya), (rv_some _ _ _ Hyb).
    apply (hd_div (fun t => evaluate (upd vs v t) a) (fun t => evaluate (upd vs v t) b)).
    + rewrite evaluate_upd_self; auto.
    + rewrite evaluate_upd_self; auto.
    + auto.
    + eapply IHa; [exact (ident_arg (NDiv i a b) a (or_introl eq_refl) Hi)|exact (nsd_arg (NDiv i a b) a (or_introl eq_refl) Hd)|exact Hya].
    + eapply IHb; [exact (ident_arg (NDiv i a b) b (or_intror (or_introl eq_refl)) Hi)|exact (nsd_arg (NDiv i a b) b (or_intror (or_introl eq_refl)) Hd)|exact Hyb].
  - rewrite Rplus_0_l, Rplus_0_r. cbn [pv evaluate]. rewrite ptr_eq_refl.
    assert (exists y, evaluate vs a = Some y) as [ya Hya] by (eapply evaluate_arg; [|exact Hz]; cbn; auto).
    assert (exists y, evaluate vs b = Some y) as [yb Hyb] by (eapply evaluate_arg; [|exact Hz]; cbn; auto).
    rewrite (rv_some _ _ _ Hya), (rv_some _ _ _ Hyb).
    assert (Hif : (if ptr_eq a b then yb else ya) = ya).
    { destruct (ptr_eq a b) eqn:Eab; auto.
      assert (a = b) by (apply Hi; [eapply sub_arg; [|apply sub_refl]; cbn; auto..|exact Eab]).
      subst; congruence. }
    rewrite Hif.
    apply (hd_mult (fun t => evaluate (upd vs v t) a) (fun t => evaluate (upd vs v t) b)).
    + rewrite evaluate_upd_self; auto.
    + rewrite evaluate_upd_self; auto.
    + eapply IHa; [exact (ident_arg (NMul i a b) a (or_introl eq_refl) Hi)|exact (nsd_arg (NMul i a b) a (or_introl eq_refl) Hd)|exact Hya].
    + eapply IHb; [exact (ident_arg (NMul i a b) b (or_intror (or_introl eq_refl)) Hi)|exact (nsd_arg (NMul i a b) b (or_intror (or_introl eq_refl)) Hd)|exact Hyb].
  - rewrite Rplus_0_l, Rplus_0_r. cbn [evaluate pv].
    assert (exists y, evaluate vs a = Some y) as [y Hy] by (eapply evaluate_arg; [|exact Hz]; cbn; auto).
    apply (hd_comp sin _ _ (rv vs a)).
    + rewrite evaluate_upd_self, (rv_some _ _ _ Hy); auto.
    + apply derivable_pt_lim_sin.
    + eapply IHa; [exact (ident_arg (NSin i a) a (or_introl eq_refl) Hi)|exact (nsd_arg (NSin i a) a (or_introl eq_refl) Hd)|exact Hy].
Qed.
Theorem C78_derivative (HO : HashOrd) (e v d : nodeX) k k' (vs : valsX) x0 z :
  identities e -> no_self_division e -> derivative e v k = Ok (d, k') ->
  evaluate vs e = Some z -> evaluate vs v = Some x0 ->
  exists l, evaluate vs d = Some l /\ has_derivative (fun t => evaluate (upd vs v t) e) x0 l.
Proof.
  intros Hi Hd E Hz Hv. apply derivative_ok in E as (Hvar & _ & k1 & k2 & E & _).
  exists (Dv vs v e). split; [eapply path_sum_Dv; eauto|]. eapply Dv_right; eauto.
Qed.
(** ** C78 The gradient. *)
Theorem C78_gradient (HO : HashOrd) (e : nodeX) k sc k' :
  identities e -> no_self_division e -> functions_of_variables e -> std_components e k = Ok (sc, k') ->
  NoDup (map fst (sc_gphi sc)) /\
  (forall v, In v (map fst (sc_gphi sc)) <-> occurs v e) /\
  forall v d (vs : valsX) z, In (v, d) (sc_gphi sc) -> evaluate vs e = Some z ->
    exists l, evaluate vs d = Some l /\ has_partial e vs v l.
Proof.
  intros Hi Hd Hf E. apply std_components_ok in E as (_ & _ & _ & Hv & E).
  destruct (C78_variables e Hi) as [Hnd0 Hocc0].
  pose proof (Permutation_map fst (ord_perm _ 3 k (p_a (std_properties e)))) as HP.
  assert (Hocc : forall v, In v (map fst (sc_gphi sc)) <-> occurs v e).
  { intros v. rewrite Hv, <- Hocc0. split; apply Permutation_in; [exact HP|apply Permutation_sym; exact HP]. }
  split; [rewrite Hv; eapply Permutation_NoDup; [apply Permutation_sym; exact HP|exact Hnd0]|]. split; [exact Hocc|].
  intros v d vs z Hin Hz.
  assert (Ho : occurs v e) by (apply Hocc; apply (in_map fst) in Hin; exact Hin).
  destruct (evaluate_sub vs e v z (proj2 Ho) Hz) as [x0 Hx0].
  destruct (p_affine (std_properties e)) eqn:Ha.
  - destruct E as [E _].
    assert (G : exists c i, In (v, c) (p_a (std_properties e)) /\ d = NConst i c).
    { revert Hin. assert (HP' := ord_perm _ 3 k (p_a (std_properties e))).
      assert (Hsub : forall q, In q (ord 3 k (p_a (std_properties e))) -> In q (p_a (std_properties e)))
        by (intros; eapply Permutation_in; eauto).
      revert Hsub E. clear. generalize (ord 3 k (p_a (std_properties e))) as L, (sc_gphi sc) as G.
      intros L G Hsub HF. induction HF as [|[v' d'] [w c] G L [E1 [i E2]] HF IH]; [intros []|].
      cbn in E1, E2. subst. intros [E|Hin].
      - inversion E; subst. exists c, i. split; auto. apply Hsub; cbn; auto.
      - apply IH; auto. intros; apply Hsub; cbn; auto. }
    destruct G as (c & i & Hc & ->).
    assert (Hval : forall us : valsX, evaluate us e = x2 Rplus (lin us (p_a (std_properties e))) (p_b (std_properties e))) by (intros us; exact (C78_affine e us Hf Ha)).
    pose proof Hz as Hz'. rewrite Hval in Hz'.
    destruct (lin vs (p_a (std_properties e))) as [zl|] eqn:El; [|discriminate Hz'].
    destruct (p_b (std_properties e)) as [zb|] eqn:Eb; [|discriminate Hz'].
    assert (HPart : has_partial e vs v (coef v (p_a (std_properties e)))).
    { exists x0. split; [exact Hx0|]. eapply hd_ext; [intros t; symmetry; apply Hval|].
      eapply hd_eq; [|apply hd_plus; [|apply hd_const]].
      2:{ eapply lin_deriv; eauto. apply keys_var. apply Ho. }
      lra. }
    rewrite (coef_in v c) in HPart; auto using keys_nodup.
    exists (CompProofs.xr c). split; [|exact HPart]. cbn [evaluate].
    destruct c as [c|]; [reflexivity|]. exfalso.
    unfold lin in El. apply xsum_some in El. rewrite Forall_forall in El.
    destruct (El (x2 Rmult None (evaluate vs v))) as [r Hr]; [|discriminate].
    apply in_map_iff. exists (v, None). auto.
  - destruct E as [E _]. rewrite Forall_forall in E. destruct (E _ Hin) as (k1 & k2 & _ & P).
    cbn [fst snd] in P. exists (Dv vs v e). split; [eapply path_sum_Dv; eauto|].
    exists x0. split; auto. eapply Dv_right; eauto. apply Ho.
Qed.

(** ** C78 The only panics of taking a derivative. *)
Section Panics.
  Context {T : Type} `{Num T}.
  Local Notation bad p := (p = PAssert \/ p = PDivZero).
  Definition mild {A} (m : M A) : Prop := forall k p, m k = Panic p -> bad p.
  Lemma mild_bind {A B} (m : M A) (f : A -> M B) : mild m -> (forall a, mild (f a)) -> mild (bind m f).
  Proof. intros Hm Hf k p E. apply bind_panic in E as [E|(a & k1 & _ & E)]; [exact (Hm _ _ E)|exact (Hf _ _ _ E)]. Qed.
  Lemma mild_ret {A} (a : A) : mild (ret a).
  Proof. intros k p E. discriminate E. Qed.
  Lemma mild_const (c : T) : mild (mk_const c).
  Proof. intros k p E. discriminate E. Qed.
  Lemma mild_add (l : list (node T)) : mild (mk_add l).
  Proof. intros k p E. unfold mk_add in E. destruct (_ <? _)%nat; [|discriminate E]. injection E as <-. left; reflexivity. Qed.
  Lemma mild_mul (a b : node T) : mild (mk_mul a b).
  Proof. intros k p E. discriminate E. Qed.
  Lemma mild_div (a b : node T) : mild (mk_div a b).
  Proof. intros k p E. discriminate E. Qed.
  Lemma mild_fail {A} : mild (fail PDivZero : M A).
  Proof. intros k p E. injection E as <-. right; reflexivity. Qed.
  Lemma mild_if {A} (b : bool) (m m' : M A) : mild m -> mild m' -> mild (if b then m else m').
  Proof. destruct b; auto. Qed.
  Lemma mild_mapM {A B} (f : A -> M B) l : Forall (fun a => mild (f a)) l -> mild (mapM f l).
  Proof.
    induction 1 as [|a l Ha _ IH]; [apply mild_ret|]. cbn [mapM]. apply mild_bind; [exact Ha|]. intros b. apply mild_bind; [exact IH|]. intros bs. apply mild_ret.
  Qed.
  Lemma mild_foldM {A B} (f : B -> A -> M B) l : (forall b a, mild (f b a)) -> forall b, mild (foldM f l b).
  Proof. intros Hf. induction l as [|a l IH]; intros b; [apply mild_ret|]. cbn [foldM]. apply mild_bind; [apply Hf|exact IH]. Qed.
  Lemma mild_mul_cn s r : mild (mul_cn s r).
  Proof.
    induction r as [i w|i st kd|i args IH|i a IHa|i a b IHa IHb|i a b IHa IHb|i a IHa] using node_ind'; cbn [mul_cn];
      repeat (apply mild_if; [first [apply mild_const|apply mild_ret]|]); try apply mild_mul.
    apply mild_bind; [apply mild_mapM; exact IH|]. intros l. apply mild_add.
  Qed.
  Lemma mild_mul_nc s r : mild (mul_nc s r).
  Proof.
    induction s as [i w|i st kd|i args IH|i a IHa|i a b IHa IHb|i a b IHa IHb|i a IHa] using node_ind'; cbn [mul_nc];
      repeat (apply mild_if; [first [apply mild_const|apply mild_ret]|]); try apply mild_mul.
    apply mild_bind; [apply mild_mapM; exact IH|]. intros l. apply mild_add.
  Qed.
  Lemma mild_mul_nn s r : mild (mul_nn s r).
  Proof.
    unfold mul_nn. repeat (apply mild_if; [first [apply mild_const|apply mild_ret]|]).
    destruct s, r; try apply mild_mul; (apply mild_bind; [apply mild_mapM; apply Forall_forall; intros x _; first [apply mild_mul_cn|apply mild_mul_nc]|]; intros l; apply mild_add).
  Qed.
  Lemma mild_mul_sn s r : mild (mul_sn s r).
  Proof.
    induction r as [i w|i st kd|i args IH|i a IHa|i a b IHa IHb|i a b IHa IHb|i a IHa] using node_ind'; cbn [mul_sn];
      repeat (apply mild_if; [first [apply mild_const|apply mild_ret]|]); try (apply mild_bind; [apply mild_const|]; intros c; apply mild_mul).
    apply mild_bind; [apply mild_mapM; exact IH|]. intros l. apply mild_add.
  Qed.
  Lemma mild_neg_n n : mild (neg_n n).
  Proof. destruct n; cbn [neg_n]; try apply mild_mul_sn. apply mild_const. Qed.
  Lemma mild_add_nn a b : mild (add_nn a b).
  Proof.
    unfold add_nn. apply mild_if; [apply mild_ret|]. apply mild_if; [apply mild_ret|]. unfold add_other.
    destruct (fold_left add_outer [a; b] (n0, [])) as [c [|x l]]; [apply mild_const|]. apply mild_if; [|apply mild_add]. apply mild_bind; [apply mild_const|]. intros y. apply mild_add.
  Qed.
  Lemma mild_partial n a : mild (partial n a).
  Proof.
    destruct n as [i w|i st kd|i args|i x|i x y|i x y|i x]; cbn [partial].
    - apply mild_const.
    - destruct a; try apply mild_const. apply mild_if; apply mild_const.
    - apply mild_if; apply mild_const.
    - apply mild_if; [|apply mild_const]. apply mild_bind; [|intros s; apply mild_neg_n]. intros k p E. unfold sin_n in E. destruct x; discriminate E.
    - apply mild_if; [|apply mild_if; [|apply mild_const]].
      + unfold div_sn. apply mild_if; [apply mild_fail|]. repeat (apply mild_if; [apply mild_const|]). apply mild_bind; [apply mild_const|]. intros c. apply mild_div.
      + apply mild_bind; [apply mild_neg_n|]. intros u. apply mild_bind; [apply mild_mul_nn|]. intros w. unfold div_nn.
        apply mild_if; [apply mild_fail|]. repeat (apply mild_if; [first [apply mild_const|apply mild_ret]|]). apply mild_div.
    - apply mild_if; [apply mild_ret|]. apply mild_if; [apply mild_ret|apply mild_const].
    - apply mild_if; [|apply mild_const]. intros k p E. unfold cos_n in E. destruct x; discriminate E.
  Qed.
  Theorem C78_panics (HO : HashOrd) (e v : node T) k p : is_var v = true -> derivative e v k = Panic p -> bad p.
  Proof.
    intros Hv E. rewrite derivative_eq in E by exact Hv. revert E. enough (Hm : mild (path_sum (rpaths v e))) by (intros E; exact (Hm _ _ E)).
    unfold path_sum. apply mild_bind; [apply mild_const|]. intros z. apply mild_foldM. intros d q. apply mild_bind; [|intros pr; apply mild_add_nn].
    unfold path_prod. apply mild_bind; [apply mild_const|]. intros o. apply mild_foldM. intros pr [x y]. cbn [fst snd]. apply mild_bind; [apply mild_partial|]. intros dd. apply mild_mul_nn.
  Qed.
End Panics.
(** A quotient by the constant zero, which the operators refuse to build, does not evaluate but
    its derivative panics. *)
Theorem C78_zero_denominator `{HashOrd} : exists (e v : nodeX), identities e /\ is_var v = true /\ (forall vs, evaluate vs e = None) /\ forall k, derivative e v k = Panic PDivZero.
Proof.
  set (x := NVar 0 "x"%string VarContinuous : nodeX). exists (NDiv 2 x (NConst 1 (Some 0))), x. split; [|split; [reflexivity|split]].
  - intros a b Ha Hb. unfold x in *.
    repeat match goal with
      | Hs : sub _ (NVar _ _ _) |- _ => inversion Hs; clear Hs; subst
      | Hs : sub _ (NConst _ _) |- _ => inversion Hs; clear Hs; subst
      | Hs : sub _ (NDiv _ _ _) |- _ => inversion Hs; clear Hs; subst
      | Hi : In _ _ |- _ => cbn [arguments In] in Hi
      | Hi : _ \/ _ |- _ => destruct Hi as [<-|Hi]
      | Hi : False |- _ => destruct Hi
      end; intros E; try reflexivity; discriminate E.
  - intros vs. change (evaluate vs (NDiv 2 x (NConst 1 (Some 0)))) with (xdiv (evaluate vs x) (Some 0)). unfold xdiv. destruct (evaluate vs x); [|reflexivity].
    destruct (Req_EM_T 0 0); [reflexivity|contradiction].
  - intros k. rewrite derivative_eq by reflexivity. change (rpaths x (NDiv 2 x (NConst 1 (Some 0)))) with [[(NDiv 2 x (NConst 1 (Some 0)) : nodeX); x]].
    unfold path_sum, path_prod, bind, mk_const, partial, div_sn, fail. cbn [foldM windows2 fst snd bind]. unfold bind, partial, div_sn, fail. rewrite ptr_eq_refl. cbn [is_constant_with_value neqb NumX].
    change (@n0 X _) with (Some 0). unfold xeqb at 1. destruct (Req_EM_T 0 0); [reflexivity|contradiction].
Qed.

(** A product of a sum and a quotient made by constructors only, with constants the operators
    would have folded. *)
Example C78_example : let x := NVar 0 "x"%string VarContinuous : nodeX in
  let e := NMul 5 (NAdd 3 [NConst 1 (Some 2); NConst 2 (Some 3)]) (NSin 4 x) : nodeX in
  identities e /\ no_self_division e /\ functions_of_variables e /\ p_affine (std_properties e) = false /\ occurs x e /\
  exists r, @derivative X _ ord_id e x 6%nat = Ok r.
Proof.
  intros x e. split; [|split; [|split]].
  - intros a b Ha Hb. unfold e, x in *.
    repeat match goal with
      | Hs : sub _ (NVar _ _ _) |- _ => inversion Hs; clear Hs; subst
      | Hs : sub _ (NConst _ _) |- _ => inversion Hs; clear Hs; subst
      | Hs : sub _ (NMul _ _ _) |- _ => inversion Hs; clear Hs; subst
      | Hs : sub _ (NAdd _ _) |- _ => inversion Hs; clear Hs; subst
      | Hs : sub _ (NSin _ _) |- _ => inversion Hs; clear Hs; subst
      | Hi : In _ _ |- _ => cbn [arguments In] in Hi
      | Hi : _ \/ _ |- _ => destruct Hi as [<-|Hi]
      | Hi : False |- _ => destruct Hi
      end; intros E; try reflexivity; discriminate E.
  - intros i a b Ha. unfold e, x in *.
    repeat match goal with
      | Hs : sub _ (NVar _ _ _) |- _ => inversion Hs; clear Hs; subst
      | Hs : sub _ (NConst _ _) |- _ => inversion Hs; clear Hs; subst
      | Hs : sub _ (NMul _ _ _) |- _ => inversion Hs; clear Hs; subst
      | Hs : sub _ (NAdd _ _) |- _ => inversion Hs; clear Hs; subst
      | Hs : sub _ (NSin _ _) |- _ => inversion Hs; clear Hs; subst
      | Hi : In _ _ |- _ => cbn [arguments In] in Hi
      | Hi : _ \/ _ |- _ => destruct Hi as [<-|Hi]
      | Hi : False |- _ => destruct Hi
      end.
  - intros i a Ha. exists x. destruct Ha as [Ha|Ha]; unfold e, x in *;
    repeat match goal with
      | Hs : sub _ (NVar _ _ _) |- _ => inversion Hs; clear Hs; subst
      | Hs : sub _ (NConst _ _) |- _ => inversion Hs; clear Hs; subst
      | Hs : sub _ (NMul _ _ _) |- _ => inversion Hs; clear Hs; subst
      | Hs : sub _ (NAdd _ _) |- _ => inversion Hs; clear Hs; subst
      | Hs : sub _ (NSin _ _) |- _ => inversion Hs; clear Hs; subst
      | Hi : In _ _ |- _ => cbn [arguments In] in Hi
      | Hi : _ \/ _ |- _ => destruct Hi as [<-|Hi]
      | Hi : False |- _ => destruct Hi
      end. split; [reflexivity|apply sub_refl].
  - split; [reflexivity|]. split.
    + split; [reflexivity|]. eapply sub_arg; [right; left; reflexivity|]. eapply sub_arg; [left; reflexivity|]. apply sub_refl.
    + rewrite derivative_eq by reflexivity.
      change (rpaths x e) with [[e; NSin 4 x; x]]. unfold path_sum, path_prod. unfold bind at 1. cbn [mk_const]. cbn [foldM]. unfold bind at 1 2 3. cbn [mk_const windows2 foldM fst snd].
      unfold bind at 1 2. change (partial e (NSin 4 x) 8%nat) with (Ok ((NAdd 3 [NConst 1 (Some 2); NConst 2 (Some 3)] : nodeX), 8%nat)). cbv beta iota.
      rewrite ex_mul1 by reflexivity.
      unfold bind at 1 2. change (partial (NSin 4 x) x 8%nat) with (Ok ((NCos 8 x : nodeX), 9%nat)). cbv beta iota.
      change (mul_nn (NAdd 3 [NConst 1 (Some 2); NConst 2 (Some 3)]) (NCos 8 x) 9%nat) with (Ok ((NMul 9 (NAdd 3 [NConst 1 (Some 2); NConst 2 (Some 3)]) (NCos 8 x) : nodeX), 10%nat)). cbv beta iota.
      unfold ret. rewrite ex_add0. eauto.
Qed.
