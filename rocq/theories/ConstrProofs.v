(** The standard form of one constraint. *)
From Verif Require Import Base Num Node NodeDiff NodeInd NodeStd Constraint ExprSpec ConstrSpec World Fresh
     EvalProofs MapProofs StdPropProofs DerivProofs DiffProofs GradProofs PanicProofs CompProofs OccProofs.
From Coq Require Import Reals Lra.

(** *** Subtraction is exact (no value appears or disappears). *)
Section Exact.
Local Open Scope R_scope.
Lemma xmult_xsum_eq c l : x2 Rmult (Some c) (xsum l) = xsum (map (x2 Rmult (Some c)) l).
Proof.
  induction l as [|x l IH]; [unfold xsum; cbn; f_equal; lra|].
  cbn [map]. rewrite !xsum_cons, <- IH. destruct x, (xsum l); cbn; auto. f_equal; lra.
Qed.
Lemma mapM_vals_eq vs (f : nodeX -> M nodeX) (g : X -> X) l k rs k' :
  mapM f l k = Ok (rs, k') ->
  (forall x, In x l -> forall k r k', f x k = Ok (r, k') -> evaluate vs r = g (evaluate vs x)) ->
  map (evaluate vs) rs = map g (map (evaluate vs) l).
Proof.
  revert k rs k'; induction l as [|x l IH]; intros k rs k' E Hf.
  - inversion E; subst. reflexivity.
  - apply mapM_cons_ok in E as (b & k1 & bs & E1 & E2 & ->). cbn [map].
    rewrite (Hf x (or_introl eq_refl) _ _ _ E1). f_equal.
    eapply IH; [exact E2|]. intros; eapply Hf; cbn; eauto.
Qed.
Lemma mul_sn_exact vs c a k r k' :
  c <> 0 -> mul_sn (T := X) (Some c) a k = Ok (r, k') ->
  evaluate vs r = x2 Rmult (Some c) (evaluate vs a).
Proof.
  intros Hc. revert k r k'.
  assert (Hc0 : neqb (Some c : X) n0 = false) by (apply xeqb_some_false; auto).
  induction a as [i w|i st kd|i args IH|i a _|i a b _ _|i a b _ _|i a _] using node_ind'; intros k r k' E;
    cbn [mul_sn is_constant is_constant_with_value orb] in E; rewrite Hc0 in E; cbn [orb] in E.
  1: { inversion E; subst. reflexivity. }
  all: destruct (neqb (Some c : X) n1) eqn:Hv1;
    [inversion E; subst; apply xeqb_one in Hv1 as ->; rewrite xmult_1_l; auto|].
  2: { rewrite Forall_forall in IH. apply bind_ok in E as (rs & k1 & E1 & E2).
       unfold mk_add in E2. destruct (_ <? _)%nat; [discriminate|]. inversion E2; subst.
       rewrite !evaluate_add, xmult_xsum_eq.
       f_equal. eapply mapM_vals_eq; [exact E1|]. intros y Hy k0 r0 k0' E0. exact (IH y Hy _ _ _ E0). }
  all: apply bind_ok in E as (d & k1 & E1 & E2); inversion E1; subst; inversion E2; subst; reflexivity.
Qed.
Lemma sub_nn_exact vs a b k r k' :
  sub_nn (T := X) a b k = Ok (r, k') ->
  evaluate vs r = x2 Rminus (evaluate vs a) (evaluate vs b).
Proof.
  unfold sub_nn. intros E. apply bind_ok in E as (m & k1 & E1 & E2).
  assert (Em : evaluate vs m = x2 Rmult (Some (-(1))) (evaluate vs b)).
  { eapply mul_sn_exact; [|exact E1]. lra. }
  apply (add_nn_val vs) in E2. rewrite E2, Em. destruct (evaluate vs a), (evaluate vs b); cbn; auto.
  f_equal; lra.
Qed.
Lemma neg_n_exact vs a k r k' :
  neg_n (T := X) a k = Ok (r, k') -> evaluate vs r = x1 Ropp (evaluate vs a).
Proof.
  assert (Hm : x1 Ropp (evaluate vs a) = x2 Rmult (Some (-(1))) (evaluate vs a)).
  { destruct (evaluate vs a); cbn; try reflexivity. f_equal; lra. }
  rewrite Hm. intros E. destruct a; cbn [neg_n] in E; try (eapply mul_sn_exact; [|exact E]; lra).
  inversion E; subst. reflexivity.
Qed.
End Exact.

(** *** The five cases of [std_components]. *)
Section Cases.
  Context {T : Type} `{Num T} `{HashOrd}.

  Definition slack_name (l : string) (row : nat) : string := (l ++ nat_str row ++ "_")%string.

  Inductive std_case (c : constraint T) (arow jrow : nat) (e : node T) (sc : std_comp T) (t k2 : nat)
    : cstd T -> nat -> nat -> nat -> Prop :=
  | case_bound x v :
      p_affine (std_properties e) = true -> p_a (std_properties e) = [(x, v)] -> neqb v n1 = true ->
      ckd c <> Equal ->
      std_case c arow jrow e sc t k2
        (mk_cstd [] [] [] [] [] [] []
           (if ckind_eqb (ckd c) LessEqual then [(x, nneg (p_b (std_properties e)), c)] else [])
           (if ckind_eqb (ckd c) LessEqual then [] else [(x, nneg (p_b (std_properties e)), c)])
           [std_properties e]) arow jrow k2
  | case_lin_eq :
      p_affine (std_properties e) = true -> ckd c = Equal ->
      std_case c arow jrow e sc t k2
        (mk_cstd [c] [] (map (fun kv => (arow, fst kv, snd kv)) (ord 4 t (p_a (std_properties e))))
           [nneg (p_b (std_properties e))] [] [] [] [] [] [std_properties e]) (S arow) jrow k2
  | case_lin_ineq s :
      p_affine (std_properties e) = true -> ckd c <> Equal ->
      is_bound (ckd c) (std_properties e) = None ->
      s = NVar k2 (slack_name "_s_a" arow) VarContinuous ->
      std_case c arow jrow e sc t k2
        (mk_cstd [c] [] (map (fun kv => (arow, fst kv, snd kv)) (ord 4 t (p_a (std_properties e))) ++ [(arow, s, nm1)])
           [nneg (p_b (std_properties e))] [] [] []
           (if ckind_eqb (ckd c) LessEqual then [(s, n0, c)] else [])
           (if ckind_eqb (ckd c) LessEqual then [] else [(s, n0, c)])
           [mk_std_prop (p_affine (std_properties e)) (hinsert ptr_eq s nm1 (p_a (std_properties e)))
                        (p_b (std_properties e))]) (S arow) jrow (S k2)
  | case_nl_eq :
      p_affine (std_properties e) = false -> ckd c = Equal ->
      std_case c arow jrow e sc t k2
        (mk_cstd [] [c] [] [] [e] (map (fun ge => (jrow, fst ge, snd ge)) (sc_gphi sc)) [sc_hphi sc] [] []
                 [std_properties e]) arow (S jrow) k2
  | case_nl_ineq s f k3 m1 :
      p_affine (std_properties e) = false -> ckd c <> Equal ->
      s = NVar k2 (slack_name "_s_j" jrow) VarContinuous ->
      sub_nn e s (S k2) = Ok (f, k3) -> m1 = NConst k3 nm1 ->
      std_case c arow jrow e sc t k2
        (mk_cstd [] [c] [] [] [f] (map (fun ge => (jrow, fst ge, snd ge)) (sc_gphi sc) ++ [(jrow, s, m1)])
           [sc_hphi sc]
           (if ckind_eqb (ckd c) LessEqual then [(s, n0, c)] else [])
           (if ckind_eqb (ckd c) LessEqual then [] else [(s, n0, c)])
           [mk_std_prop (p_affine (std_properties e)) (hinsert ptr_eq s nm1 (p_a (std_properties e)))
                        (p_b (std_properties e))]) arow (S jrow) (S k3).

  Lemma is_bound_some kd p x : is_bound kd p = Some x ->
    exists v, p_affine p = true /\ p_a p = [(x, v)] /\ neqb v n1 = true /\ kd <> Equal.
  Proof.
    unfold is_bound. destruct (p_a p) as [|[y v] [|? ?]]; try discriminate.
    destruct (p_affine p); cbn; try discriminate. destruct (neqb v n1) eqn:E; cbn; try discriminate.
    destruct kd; cbn; intros X; inversion X; subst; exists v; repeat split; auto; discriminate.
  Qed.

  Lemma mk_var_inv nm kd k (s : node T) k' : mk_var nm kd k = Ok (s, k') -> s = NVar k nm kd /\ k' = S k.
  Proof. unfold mk_var. split; congruence. Qed.

  Lemma constr_std_inv c arow jrow k cs ar' jr' k' :
    constr_std c arow jrow k = Ok ((cs, ar', jr'), k') ->
    exists e k1 sc k2,
      sub_nn (clhs c) (crhs c) k = Ok (e, k1) /\ std_components e k1 = Ok (sc, k2) /\
      std_case c arow jrow e sc k2 k2 cs ar' jr' k'.
  Proof.
    unfold constr_std. intros E. apply bind_ok in E as (e & k1 & E1 & E).
    apply bind_ok in E as (sc & k2 & E2 & E).
    apply bind_ok in E as (t & k2' & Et & E). inversion Et; subst t k2'; clear Et.
    exists e, k1, sc, k2. split; [auto|split; [auto|]].
    apply std_components_ok in E2 as (_ & Hphi & Hprop & _ & _).
    rewrite Hprop, Hphi in E. clear Hprop Hphi.
    destruct (is_bound (ckd c) (std_properties e)) as [x|] eqn:Hb.
    - pose proof Hb as (v & Ha & Hp & Hv & Hk)%is_bound_some.
      destruct (ckd c) eqn:Hkd; inversion E; subst; clear E.
      + pose proof (case_bound c ar' jr' e sc k' k' x v Ha Hp Hv) as G. rewrite Hkd in G. apply G; auto.
      + pose proof (case_bound c ar' jr' e sc k' k' x v Ha Hp Hv) as G. rewrite Hkd in G. apply G; auto.
    - destruct (p_affine (std_properties e)) eqn:Ha.
      + destruct (ckd c) eqn:Hkd; cbn [ckind_eqb] in E.
        * inversion E; subst. apply case_lin_eq; auto.
        * apply bind_ok in E as (s & k3 & E3 & E). apply mk_var_inv in E3 as [Hs ->].
          unfold bind, lift, slack_bounds in E. rewrite Hkd in E. inversion E; subst cs ar' jr' k'.
          pose proof (case_lin_ineq c arow jrow e sc k2 k2 s Ha) as G. rewrite Hkd, Ha in G.
          apply G; auto. discriminate.
        * apply bind_ok in E as (s & k3 & E3 & E). apply mk_var_inv in E3 as [Hs ->].
          unfold bind, lift, slack_bounds in E. rewrite Hkd in E. inversion E; subst cs ar' jr' k'.
          pose proof (case_lin_ineq c arow jrow e sc k2 k2 s Ha) as G. rewrite Hkd, Ha in G.
          apply G; auto. discriminate.
      + destruct (ckd c) eqn:Hkd; cbn [ckind_eqb] in E.
        * inversion E; subst. apply case_nl_eq; auto.
        * apply bind_ok in E as (s & k3 & E3 & E). apply mk_var_inv in E3 as [Hs ->].
          apply bind_ok in E as (f & k3 & E3 & E). unfold bind, mk_const, lift, slack_bounds in E.
          rewrite Hkd in E. inversion E; subst cs ar' jr' k'.
          pose proof (case_nl_ineq c arow jrow e sc k2 k2 s f k3 (NConst k3 nm1) Ha) as G. rewrite Hkd, Ha in G.
          apply G; auto. discriminate.
        * apply bind_ok in E as (s & k3 & E3 & E). apply mk_var_inv in E3 as [Hs ->].
          apply bind_ok in E as (f & k3 & E3 & E). unfold bind, mk_const, lift, slack_bounds in E.
          rewrite Hkd in E. inversion E; subst cs ar' jr' k'.
          pose proof (case_nl_ineq c arow jrow e sc k2 k2 s f k3 (NConst k3 nm1) Ha) as G. rewrite Hkd, Ha in G.
          apply G; auto. discriminate.
  Qed.
End Cases.

(** *** Where the variables of the components come from. *)
Section Part.
  Context {T : Type} `{Num T} `{HashOrd}.

  Definition prop_keys (cs : cstd T) : list (node T) := concat (map (fun p => map fst (p_a p)) (cs_prop cs)).

  (** Everything in the components is in [S], and every variable used is a key
      of the properties. *)
  Record part_in (S : node T -> Prop) (cs : cstd T) : Prop := {
    pi_keys : Forall (fun v => S v /\ is_var v = true) (prop_keys cs);
    pi_a : Forall (fun e => In (snd (fst e)) (prop_keys cs)) (cs_a cs);
    pi_f : Forall (fun f => S f /\ forall v, occurs v f -> In v (prop_keys cs)) (cs_f cs);
    pi_j : Forall (fun e => In (snd (fst e)) (prop_keys cs) /\ S (snd e)) (cs_j cs);
    pi_h : Forall (Forall (fun e => In (fst (fst e)) (prop_keys cs) /\ In (snd (fst e)) (prop_keys cs) /\ S (snd e))) (cs_h cs);
    pi_u : Forall (fun e => In (fst (fst e)) (prop_keys cs)) (cs_u cs);
    pi_l : Forall (fun e => In (fst (fst e)) (prop_keys cs)) (cs_l cs)
  }.

  (** Row numbers and lengths. *)
  Record part_rows (arow jrow : nat) (cs : cstd T) (ar' jr' : nat) : Prop := {
    pr_ar : ar' = arow + length (cs_b cs);
    pr_ca : length (cs_ca cs) = length (cs_b cs);
    pr_a : Forall (fun e => arow <= fst (fst e) < ar') (cs_a cs);
    pr_jr : jr' = jrow + length (cs_f cs);
    pr_cj : length (cs_cj cs) = length (cs_f cs);
    pr_h : length (cs_h cs) = length (cs_f cs);
    pr_j : Forall (fun e => jrow <= fst (fst e) < jr') (cs_j cs)
  }.

  Lemma case_rows c arow jrow e sc t k2 cs ar' jr' k' :
    std_case c arow jrow e sc t k2 cs ar' jr' k' -> part_rows arow jrow cs ar' jr'.
  Proof.
    destruct 1; constructor; cbn; try lia; auto;
      try (apply Forall_app; split); try (apply Forall_forall; intros x0 Hx0;
        try (apply in_map_iff in Hx0 as (? & <- & ?)); cbn in *; try lia; try (destruct Hx0 as [<-|[]]; cbn; lia)).
  Qed.

  Lemma fresh_keys nsq k S (e s : node T) :
    world nsq k S -> S e -> is_var s = true -> k <= nid s ->
    existsb (ptr_eq s) (map fst (p_a (std_properties e))) = false.
  Proof.
    intros HW Se Hs Hk. apply not_true_is_false. intros E. apply existsb_exists in E as (w & Hw & Ew).
    apply keys_occur in Hw. apply ptr_eq_nid in Ew.
    assert (S w) by (eapply world_sub; [exact HW|exact Se|apply Hw]).
    pose proof (w_lt _ _ _ HW w H1). lia.
  Qed.

  Lemma gphi_keys (e : node T) k sc k' :
    std_components e k = Ok (sc, k') ->
    forall v, In v (map fst (sc_gphi sc)) <-> In v (map fst (p_a (std_properties e))).
  Proof.
    intros E. apply std_components_ok in E as (_ & _ & _ & Hv & _). intros v. rewrite Hv.
    split; intros Hin; (eapply Permutation_in; [|exact Hin]);
      [|apply Permutation_sym]; apply Permutation_map, ord_perm.
  Qed.
  Lemma hphi_keys (e : node T) k sc k' :
    std_components e k = Ok (sc, k') ->
    forall x, In x (sc_hphi sc) -> In (fst (fst x)) (map fst (p_a (std_properties e))) /\
                                   In (snd (fst x)) (map fst (p_a (std_properties e))).
  Proof.
    intros E x Hx. apply std_components_ok in E as (_ & _ & _ & _ & E).
    destruct (p_affine (std_properties e)); [destruct E as [_ E]; rewrite E in Hx; destruct Hx|].
    destruct E as (_ & dds & _ & _ & E). rewrite E in Hx.
    apply in_flat_map in Hx as ([q d] & Hq & Hx). unfold nz_entry in Hx.
    destruct (is_constant_with_value _ _); [destruct Hx|]. destruct Hx as [<-|[]].
    apply in_combine_l in Hq. destruct q as [a b]. apply pairs_in in Hq as [Ha Hb].
    cbn [fst snd]. split; (eapply Permutation_in; [|eassumption]); apply Permutation_map, ord_perm.
  Qed.

  Lemma world_keys nsq k S (e : node T) :
    world nsq k S -> S e ->
    Forall (fun v => S v /\ is_var v = true) (map fst (p_a (std_properties e))).
  Proof.
    intros HW Se. apply Forall_forall. intros v Hv. apply keys_occur in Hv as [H1' H2']. split; auto.
    eapply world_sub; eauto.
  Qed.

  Lemma constr_std_in nsq k S c arow jrow cs ar' jr' k' :
    world nsq k S -> S (clhs c) -> S (crhs c) ->
    constr_std c arow jrow k = Ok ((cs, ar', jr'), k') ->
    k <= k' /\ exists S', incl S S' /\ world nsq k' S' /\ part_in S' cs.
  Proof.
    intros HW Sl Sr E. apply constr_std_inv in E as (e & k1 & sc & k2 & E1 & E2 & E).
    destruct (sub_nn_grows nsq k S _ _ HW Sl Sr _ _ E1) as (K1 & S1 & I1 & W1 & Se).
    destruct (std_components_grows nsq k1 S1 _ W1 Se _ _ E2) as (K2 & S2 & I2 & W2 & Hphi & Hg & Hh).
    assert (Se2 : S2 e) by auto.
    pose proof (world_keys nsq k2 S2 e W2 Se2) as Hk.
    pose proof (gphi_keys e k1 sc k2 E2) as Gk. pose proof (hphi_keys e k1 sc k2 E2) as Hhk.
    assert (Hocc : forall v, occurs v e -> In v (map fst (p_a (std_properties e)))).
    { intros v Hv. apply (keys_are_vars nsq k2 S2 e W2 Se2). exact Hv. }
    assert (Hord : forall x, In x (ord 4 k2 (p_a (std_properties e))) -> In (fst x) (map fst (p_a (std_properties e)))).
    { intros x Hx. apply in_map. eapply Permutation_in; [apply ord_perm|exact Hx]. }
    rewrite Forall_forall in Hg, Hh, Hk.
    destruct E as [x v Ha Hp Hv Hne|Ha He|s Ha Hne Hb Hs|Ha He|s f k3 m1 Ha Hne Hs Ef Hm1].
    - split; [lia|]. exists S2. split; [eapply incl_trans; eauto|]. split; auto.
      assert (Hx : In x (map fst (p_a (std_properties e)))) by (rewrite Hp; cbn; auto).
      constructor; unfold prop_keys; cbn; rewrite ?app_nil_r; auto;
        try (apply Forall_forall; exact Hk);
        destruct (ckd c); cbn; auto.
    - split; [lia|]. exists S2. split; [eapply incl_trans; eauto|]. split; auto.
      constructor; unfold prop_keys; cbn; rewrite ?app_nil_r; auto.
      + apply Forall_forall; exact Hk.
      + apply Forall_forall. intros y Hy. apply in_map_iff in Hy as (z & <- & Hz). cbn. auto.
    - destruct (mk_var_grows nsq k2 S2 (slack_name "_s_a" arow) VarContinuous W2 _ _ eq_refl)
        as (_ & S3 & I3 & W3 & Ss & _). rewrite <- Hs in Ss.
      assert (Hfr : existsb (ptr_eq s) (map fst (p_a (std_properties e))) = false).
      { apply (fresh_keys nsq k2 S2); auto; rewrite Hs; cbn; auto. }
      split; [lia|]. exists S3. split; [eapply incl_trans; [|exact I3]; eapply incl_trans; eauto|]. split; auto.
      assert (Hv : is_var s = true) by (rewrite Hs; reflexivity).
      assert (Hs1 : In s (map fst (p_a (std_properties e)) ++ [s])) by (apply in_or_app; cbn; auto).
      clear Hs. constructor; unfold prop_keys; cbn; rewrite ?app_nil_r, ?keys_hinsert, ?Hfr; auto.
      + apply Forall_app. split; [|constructor; auto]. apply Forall_forall. intros y Hy. destruct (Hk y Hy); auto.
      + apply Forall_app. split; [|constructor; auto].
        apply Forall_forall. intros y Hy. apply in_map_iff in Hy as (z & <- & Hz). cbn.
        apply in_or_app; left; auto.
      + destruct (ckd c); cbn; auto.
      + destruct (ckd c); cbn; auto.
    - split; [lia|]. exists S2. split; [eapply incl_trans; eauto|]. split; auto.
      constructor; unfold prop_keys; cbn; rewrite ?app_nil_r; auto.
      + apply Forall_forall; exact Hk.
      + apply Forall_forall. intros y Hy. apply in_map_iff in Hy as (z & <- & Hz). cbn. split; [|apply Hg; auto].
        apply Gk. apply in_map; auto.
      + constructor; auto. apply Forall_forall. intros y Hy. destruct (Hhk y Hy). auto.
    - destruct (mk_var_grows nsq k2 S2 (slack_name "_s_j" jrow) VarContinuous W2 _ _ eq_refl)
        as (_ & S3 & I3 & W3 & Ss & _). rewrite <- Hs in Ss.
      assert (Hfr : existsb (ptr_eq s) (map fst (p_a (std_properties e))) = false).
      { apply (fresh_keys nsq k2 S2); auto; rewrite Hs; cbn; auto. }
      destruct (sub_nn_grows nsq _ S3 e s W3 (I3 _ Se2) Ss _ _ Ef) as (K4 & S4 & I4 & W4 & Sf).
      destruct (mk_const_grows nsq k3 S4 nm1 W4 _ _ eq_refl) as (_ & S5 & I5 & W5 & Sm & _).
      rewrite <- Hm1 in Sm.
      split; [lia|]. exists S5. split; [intros n Hn; apply I5, I4, I3, I2, I1; exact Hn|]. split; auto.
      assert (Hv : is_var s = true) by (rewrite Hs; reflexivity).
      assert (Hs1 : In s (map fst (p_a (std_properties e)) ++ [s])) by (apply in_or_app; cbn; auto).
      assert (Hof : forall w, occurs w f -> In w (map fst (p_a (std_properties e)) ++ [s])).
      { intros w Hw. apply (sub_nn_occurs_l w _ _ _ _ _ Ef) in Hw as [Hw|[Hw1 Hw2]]; apply in_or_app; auto.
        right. rewrite Hs in Hw2. inversion Hw2 as [|? cc ? Hcc]; subst; cbn; auto. }
      clear Hs. constructor; unfold prop_keys; cbn; rewrite ?app_nil_r, ?keys_hinsert, ?Hfr; auto.
      + apply Forall_app. split; [|constructor; auto]. apply Forall_forall. intros y Hy. destruct (Hk y Hy); auto.
      + apply Forall_app. split; [|constructor; auto].
        apply Forall_forall. intros y Hy. apply in_map_iff in Hy as (z & <- & Hz). cbn. split; [|auto].
        apply in_or_app; left. apply Gk. apply in_map; auto.
      + constructor; auto. apply Forall_forall. intros y Hy. destruct (Hhk y Hy).
        repeat split; auto; apply in_or_app; left; auto.
      + destruct (ckd c); cbn; auto.
      + destruct (ckd c); cbn; auto.
  Qed.
End Part.
