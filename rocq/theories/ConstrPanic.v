(** When standardising a constraint, or a whole model, panics. *)
From Verif Require Import Base Num Node NodeInd NodeDiff NodeStd Constraint Matrix Problem ModelStd
     ExprSpec World MapProofs StdPropProofs GradProofs PanicProofs OccProofs ConstrProofs PartsProofs StdMain.

Section ConstrPanic.
  Context {T : Type} `{Num T} `{HashOrd}.

  (** A sum of constants only is affine. *)
  Lemma nonaffine_nonconst (e : node T) : p_affine (std_properties e) = false -> nonconsts (terms e) <> [].
  Proof.
    destruct e as [i v|i s kd|i xs|i a|i a b|i a b|i a]; cbn [std_properties terms p_affine]; try discriminate;
      try (cbn; discriminate).
    intros Ha Hn. assert (G : forall l p, (forall x, In x l -> is_constant x = true) -> p_affine p = true ->
       p_affine (fold_left (fun acc x => let q := std_properties x in
          mk_std_prop (p_affine acc && p_affine q) (fold_left merge_add (p_a q) (p_a acc)) (nadd (p_b acc) (p_b q))) l p) = true).
    { induction l as [|x l IH]; intros p Hc Hp; cbn [fold_left]; [exact Hp|]. apply IH.
      - intros y Hy; apply Hc; cbn; auto.
      - cbn [p_affine]. rewrite Hp. pose proof (Hc x (or_introl eq_refl)). destruct x; try discriminate. reflexivity. }
    rewrite G in Ha; [discriminate| |reflexivity].
    intros x Hx. destruct (is_constant x) eqn:E; auto. exfalso.
    assert (In x (nonconsts xs)) by (apply filter_In; rewrite E; auto). rewrite Hn in H1. destruct H1.
  Qed.

  Lemma nonconsts_len (l : list (node T)) : nonconsts l <> [] -> 1 <= length (nonconsts l).
  Proof. destruct (nonconsts l); [congruence|cbn; lia]. Qed.

  (** Subtracting a variable from a non-affine expression does not panic. *)
  Lemma sub_var_ok (e s : node T) k : neqb nm1 n0 = false ->
    p_affine (std_properties e) = false -> is_var s = true -> exists f k', sub_nn e s k = Ok (f, k').
  Proof.
    intros Hm Ha Hs. destruct (sub_nn e s k) as [[f k']|p] eqn:E; [eauto|]. exfalso.
    unfold sub_nn in E. apply bind_panic in E as [E|(m & k1 & E1 & E)].
    - destruct s; try discriminate. cbn in E. rewrite Hm in E. cbn in E. destruct (neqb nm1 n1); discriminate.
    - apply add_nn_panic in E as (_ & _ & _ & E & _). rewrite nonconsts_app, app_length in E.
      pose proof (nonconsts_len _ (nonaffine_nonconst e Ha)) as L1.
      assert (L2 : nonconsts (terms m) <> []).
      { destruct s; try discriminate. cbn in E1. rewrite Hm in E1. cbn in E1.
        destruct (neqb nm1 n1); inversion E1; subst; cbn; discriminate. }
      apply nonconsts_len in L2. lia.
  Qed.

  Theorem constr_std_panic nsq k S c arow jrow p :
    neqb (@nm1 T _) n0 = false ->
    world nsq k S -> S (clhs c) -> S (crhs c) ->
    constr_std c arow jrow k = Panic p <->
    sub_nn (clhs c) (crhs c) k = Panic p \/
    exists e k1, sub_nn (clhs c) (crhs c) k = Ok (e, k1) /\ std_components e k1 = Panic p.
  Proof.
    intros Hm HW Sl Sr. unfold constr_std. rewrite bind_panic. split.
    - intros [E|(e & k1 & E1 & E)]; [left; exact E|right]. exists e, k1. split; [exact E1|].
      apply bind_panic in E as [E|(sc & k2 & E2 & E)]; [exact E|]. exfalso.
      apply bind_panic in E as [E|(t & k2' & Et & E)]; [discriminate|]. inversion Et; subst t k2'; clear Et.
      apply std_components_ok in E2 as (_ & Hphi & Hprop & _ & _). rewrite Hprop, Hphi in E. clear Hprop Hphi.
      destruct (is_bound (ckd c) (std_properties e)) as [x|] eqn:Hb.
      { apply is_bound_some in Hb as (v & _ & _ & _ & Hk). destruct (ckd c); try discriminate. congruence. }
      destruct (p_affine (std_properties e)) eqn:Ha.
      + destruct (ckd c) eqn:Hkd; cbn [ckind_eqb] in E; [discriminate| |];
          apply bind_panic in E as [E|(s & k3 & E3 & E)]; try discriminate;
          unfold bind, lift, slack_bounds in E; rewrite Hkd in E; discriminate.
      + destruct (ckd c) eqn:Hkd; cbn [ckind_eqb] in E; [discriminate| |];
          (apply bind_panic in E as [E|(s & k3 & E3 & E)]; [discriminate|];
           apply mk_var_inv in E3 as [Hs ->];
           apply bind_panic in E as [E|(f & k3 & E4 & E)];
           [assert (Hv : is_var s = true) by (rewrite Hs; reflexivity);
            destruct (sub_var_ok e s (Datatypes.S k2) Hm Ha Hv) as (f & k3 & E'); congruence
           |unfold bind, mk_const, lift, slack_bounds in E; rewrite Hkd in E; discriminate]).
    - intros [E|(e & k1 & E1 & E)]; [left; exact E|right]. exists e, k1. split; [exact E1|].
      rewrite bind_panic. auto.
  Qed.

  (** The only panic is the assertion in the sum constructor. *)
  Theorem constr_std_assert nsq k S c arow jrow p :
    neqb (@nm1 T _) n0 = false ->
    world nsq k S -> S (clhs c) -> S (crhs c) -> constr_std c arow jrow k = Panic p -> p = PAssert.
  Proof.
    intros Hm HW Sl Sr E. apply (constr_std_panic nsq k S c arow jrow p Hm HW Sl Sr) in E as [E|(e & k1 & E1 & E)].
    - eapply sub_nn_panic; [|exact E]. eapply world_sums2; eauto.
    - destruct (sub_nn_grows nsq k S _ _ HW Sl Sr _ _ E1) as (_ & S1 & _ & W1 & Se).
      apply (std_components_panic nsq k1 S1 e p W1 Se E).
  Qed.
  (** An affine difference is always standardised. *)
  Theorem constr_std_affine nsq k S c arow jrow e k1 :
    neqb (@nm1 T _) n0 = false ->
    world nsq k S -> S (clhs c) -> S (crhs c) ->
    sub_nn (clhs c) (crhs c) k = Ok (e, k1) -> p_affine (std_properties e) = true ->
    exists r k', constr_std c arow jrow k = Ok (r, k').
  Proof.
    intros Hm HW Sl Sr E Ha. destruct (constr_std c arow jrow k) as [[r k']|p] eqn:Ec; [eauto|exfalso].
    apply (constr_std_panic nsq k S c arow jrow p Hm HW Sl Sr) in Ec as [Ec|(e' & k1' & E1 & Ec)]; [congruence|].
    rewrite E in E1. inversion E1; subst e' k1'.
    destruct (sub_nn_grows nsq k S _ _ HW Sl Sr _ _ E) as (_ & S1 & _ & W1 & Se).
    pose proof (std_components_panic nsq k1 S1 e p W1 Se Ec) as (_ & X). congruence.
  Qed.
End ConstrPanic.
