(** Further facts about expressions used by the property theorems. *)
From Verif Require Import Base Num Node NodeDiff NodeInd NodeStd World Fresh MapProofs EvalProofs
     StdPropProofs PathProofs DerivProofs DiffSpec DiffProofs PanicProofs Api ApiProofs.
From Coq Require Import Reals Lra Floats.SpecFloat.

Section Extra.
  Context {T : Type} `{Num T} `{HashOrd}.

  Lemma nonconsts_idem (l : list (node T)) : nonconsts (nonconsts l) = nonconsts l.
  Proof.
    unfold nonconsts. induction l as [|x l IH]; cbn; auto.
    destruct (negb (is_constant x)) eqn:E; cbn; rewrite ?E; [f_equal|]; auto.
  Qed.
  Lemma const_nonconsts (a : node T) : is_constant a = true -> nonconsts (terms a) = [].
  Proof. destruct a; try discriminate. auto. Qed.

  Lemma add_other_terms a b k r k' :
    add_other a b k = Ok (r, k') ->
    nonconsts (terms r) = nonconsts (terms a) ++ nonconsts (terms b).
  Proof.
    unfold add_other. rewrite add_fold_spec, <- nonconsts_app.
    pose proof (nonconsts_idem (terms a ++ terms b)) as Hi.
    destruct (nonconsts (terms a ++ terms b)) as [|x l] eqn:El.
    - intros E; inversion E; auto.
    - destruct (negb _); intros E.
      + apply bind_ok in E as (c & k1 & E1 & E2). inversion E1; subst. unfold mk_add in E2.
        destruct (_ <? _); [discriminate|]. injection E2 as <- <-.
        cbn [terms]. rewrite app_comm_cons.
        rewrite nonconsts_app, Hi. cbn. rewrite app_nil_r; auto.
      + unfold mk_add in E. destruct (_ <? _); [discriminate|]. injection E as <- <-. exact Hi.
  Qed.

  Lemma const0_const (a : node T) v : is_constant_with_value a v = true -> is_constant a = true.
  Proof. destruct a; try discriminate; auto. Qed.

  Lemma add_nn_terms a b k r k' :
    add_nn a b k = Ok (r, k') ->
    nonconsts (terms r) = nonconsts (terms a) ++ nonconsts (terms b).
  Proof.
    unfold add_nn. destruct (is_constant_with_value a n0) eqn:Ea.
    { intros E; inversion E; subst. rewrite (const_nonconsts a); auto. eapply const0_const; eauto. }
    destruct (is_constant_with_value b n0) eqn:Eb.
    { intros E; inversion E; subst. rewrite (const_nonconsts b), app_nil_r; auto. eapply const0_const; eauto. }
    apply add_other_terms.
  Qed.
  Lemma add_ns_terms a v k r k' :
    add_ns a v k = Ok (r, k') -> nonconsts (terms r) = nonconsts (terms a).
  Proof.
    unfold add_ns. destruct (neqb v n0); intros E; [inversion E; auto|].
    apply bind_ok in E as (c & k1 & E1 & E2). inversion E1; subst. apply add_other_terms in E2.
    rewrite E2. cbn. rewrite app_nil_r; auto.
  Qed.
  Lemma add_sn_terms v a k r k' :
    add_sn v a k = Ok (r, k') -> nonconsts (terms r) = nonconsts (terms a).
  Proof.
    unfold add_sn. destruct (neqb v n0); intros E; [inversion E; auto|].
    apply bind_ok in E as (c & k1 & E1 & E2). inversion E1; subst. apply add_other_terms in E2.
    rewrite E2. auto.
  Qed.

  Definition zero_const (a : node T) : Prop := exists i v, a = NConst i v /\ neqb v n0 = true.
  Definition merged (l m : list (node T)) : Prop :=
    let c := fold_left nadd (const_vals l) n0 in
    (m = [] /\ neqb c n0 = true) \/ exists i, m = [NConst i c].
  Lemma zero_const_iff (a : node T) : is_constant_with_value a n0 = true -> zero_const a.
  Proof. destruct a; try discriminate. intros E. eexists _, _. split; [reflexivity|exact E]. Qed.
  Lemma add_other_merged a b k r k' :
    add_other a b k = Ok (r, k') ->
    exists m, terms r = nonconsts (terms a) ++ nonconsts (terms b) ++ m /\ merged (terms a ++ terms b) m.
  Proof.
    unfold add_other, merged. rewrite add_fold_spec. cbv zeta.
    set (c := fold_left _ _ _). rewrite nonconsts_app.
    destruct (nonconsts (terms a) ++ nonconsts (terms b)) as [|x l] eqn:El.
    - intros E. unfold mk_const in E. injection E as <- <-. exists [NConst k c]. apply app_eq_nil in El as [-> ->].
      cbn. split; eauto.
    - destruct (neqb c n0) eqn:Ec; cbn [negb]; intros E.
      + unfold mk_add in E. destruct (_ <? _); [discriminate|]. injection E as <- <-. exists []. rewrite !app_nil_r. cbn [terms].
        split; [symmetry; exact El|auto].
      + apply bind_ok in E as (n & k1 & E1 & E2). unfold mk_const in E1. injection E1 as <- <-. unfold mk_add in E2.
        destruct (_ <? _); [discriminate|]. injection E2 as <- <-. exists [NConst k c]. cbn [terms].
        rewrite app_assoc, El. split; [reflexivity|eauto].
  Qed.
  Lemma add_nn_merged a b k r k' :
    add_nn a b k = Ok (r, k') ->
    (zero_const a /\ r = b) \/ (zero_const b /\ r = a) \/
    exists m, terms r = nonconsts (terms a) ++ nonconsts (terms b) ++ m /\ merged (terms a ++ terms b) m.
  Proof.
    unfold add_nn. destruct (is_constant_with_value a n0) eqn:Ea.
    { intros E. unfold ret in E. injection E as <- _. left. split; [apply zero_const_iff; exact Ea|reflexivity]. }
    destruct (is_constant_with_value b n0) eqn:Eb.
    { intros E. unfold ret in E. injection E as <- _. right; left. split; [apply zero_const_iff; exact Eb|reflexivity]. }
    intros E. right; right. eapply add_other_merged; exact E.
  Qed.
  Lemma add_ns_merged a v k r k' :
    add_ns a v k = Ok (r, k') ->
    (neqb v n0 = true /\ r = a) \/
    exists m, terms r = nonconsts (terms a) ++ m /\ merged (terms a ++ [NConst k v]) m.
  Proof.
    unfold add_ns. destruct (neqb v n0) eqn:Ev; intros E; [unfold ret in E; injection E as <- _; auto|].
    apply bind_ok in E as (c & k1 & E1 & E2). unfold mk_const in E1. injection E1 as <- <-. right.
    apply add_other_merged in E2 as (m & E & Hm). cbn in E. eauto.
  Qed.
  Lemma add_sn_merged v a k r k' :
    add_sn v a k = Ok (r, k') ->
    (neqb v n0 = true /\ r = a) \/
    exists m, terms r = nonconsts (terms a) ++ m /\ merged (NConst k v :: terms a) m.
  Proof.
    unfold add_sn. destruct (neqb v n0) eqn:Ev; intros E; [unfold ret in E; injection E as <- _; auto|].
    apply bind_ok in E as (c & k1 & E1 & E2). unfold mk_const in E1. injection E1 as <- <-. right.
    apply add_other_merged in E2 as (m & E & Hm). cbn in E. eauto.
  Qed.

  (** Multiplication never panics on expressions whose sums are well-formed. *)
  Lemma reach_sums2 k pool : reach any_op k pool -> Forall sums2 pool.
  Proof.
    intros Hr. destruct (reach_world false k pool Hr) as (S & HW & HS).
    eapply Forall_impl; [|exact HS]. intros n Hn. eapply world_sums2; eauto.
  Qed.
End Extra.

(** *** Missing variables in binary64. *)
Lemma SFadd_nan_r p e a : SFadd p e a S754_nan = S754_nan.
Proof. destruct a; reflexivity. Qed.
Lemma SFmul_nan_r p e a : SFmul p e a S754_nan = S754_nan.
Proof. destruct a; reflexivity. Qed.
Lemma SFdiv_nan_r p e a : SFdiv p e a S754_nan = S754_nan.
Proof. destruct a; reflexivity. Qed.

Lemma missing_nan (fsin fcos : F -> F) (vs : vals F) (n v : node F) :
  fsin S754_nan = S754_nan -> fcos S754_nan = S754_nan ->
  occurs v n -> hget ptr_eq v vs = None ->
  @evaluate F (NumF fsin fcos) vs n = S754_nan.
Proof.
  intros Hs Hc [Hv Hsub] Hno. induction Hsub as [n|v c n Hin Hsub IH].
  - destruct n; try discriminate. cbn [evaluate]. rewrite Hno. reflexivity.
  - specialize (IH Hv Hno).
    destruct n as [i w|i st kd|i args|i a|i a b|i a b|i a]; cbn [arguments] in Hin.
    + destruct Hin.
    + destruct Hin.
    + cbn [evaluate].
      enough (G : forall acc, In c args \/ acc = S754_nan ->
        fold_left (fun acc x => @nadd F (NumF fsin fcos) acc (@evaluate F (NumF fsin fcos) vs x)) args acc = S754_nan)
        by (apply G; auto).
      clear Hin. induction args as [|x args IHa]; intros acc; cbn [fold_left].
      * intros [[]|Hacc]; auto.
      * intros [[-> | Hin] | -> ]; apply IHa; auto.
        right. rewrite IH. cbn. apply SFadd_nan_r.
    + destruct Hin as [<-|[]]. cbn [evaluate]. rewrite IH. exact Hc.
    + destruct Hin as [<-|[<-|[]]]; cbn [evaluate]; rewrite IH; cbn; auto. apply SFdiv_nan_r.
    + destruct Hin as [<-|[<-|[]]]; cbn [evaluate]; rewrite IH; cbn; auto. apply SFmul_nan_r.
    + destruct Hin as [<-|[]]. cbn [evaluate]. rewrite IH. exact Hs.
Qed.
