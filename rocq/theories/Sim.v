(** Two runs of the same computation that start with different allocation
    counters give results that differ only in the addresses of the cells they
    allocate. *)
From Verif Require Import Base Num Node NodeDiff NodeStd NodeInd MapProofs PathProofs DerivProofs GradProofs.

(** Forget the addresses of everything but the variables, which are renamed. *)
Fixpoint er {T} (g : nat -> nat) (n : node T) : node T :=
  match n with
  | NConst _ v => NConst 0 v
  | NVar i s k => NVar (g i) s k
  | NAdd _ args => NAdd 0 (map (er g) args)
  | NCos _ a => NCos 0 (er g a)
  | NDiv _ a b => NDiv 0 (er g a) (er g b)
  | NMul _ a b => NMul 0 (er g a) (er g b)
  | NSin _ a => NSin 0 (er g a)
  end.

Notation e0 := (fun i : nat => i).
(** Equal after renaming the variables of [a] by [g]. *)
Definition gsim {T} (g : nat -> nat) (a b : node T) : Prop := er g a = er e0 b.

(** Same outcome up to [R], from any two counters. *)
Definition simM {A} (R : A -> A -> Prop) (m m' : M A) : Prop :=
  forall k k', match m k, m' k' with
               | Ok (a, _), Ok (b, _) => R a b
               | Panic p, Panic q => p = q
               | _, _ => False
               end.

Section Sim.
  Context {T : Type} `{Num T}.
  Variable g : nat -> nat.
  Notation sim := (@gsim T g).

  Lemma simM_ret {A} (R : A -> A -> Prop) a b : R a b -> simM R (ret a) (ret b).
  Proof. intros Hr k k'. cbn. exact Hr. Qed.
  Lemma simM_fail {A} (R : A -> A -> Prop) p : simM R (fail p) (fail p).
  Proof. intros k k'. reflexivity. Qed.
  Lemma simM_bind {A B} (R : A -> A -> Prop) (Q : B -> B -> Prop) m m' f f' :
    simM R m m' -> (forall a b, R a b -> simM Q (f a) (f' b)) -> simM Q (bind m f) (bind m' f').
  Proof.
    intros Hm Hf k k'. unfold bind. specialize (Hm k k').
    destruct (m k) as [[a k1]|p], (m' k') as [[b k1']|q]; try contradiction; auto.
    apply Hf; auto.
  Qed.
  Lemma simM_mapM {A B} (R : A -> A -> Prop) (Q : B -> B -> Prop) f f' l l' :
    Forall2 R l l' -> (forall a b, In a l -> In b l' -> R a b -> simM Q (f a) (f' b)) ->
    simM (Forall2 Q) (mapM f l) (mapM f' l').
  Proof.
    intros Hl. induction Hl as [|a b l l' Hab Hl IH]; intros Hf; cbn [mapM].
    - apply simM_ret; constructor.
    - eapply simM_bind; [apply Hf; cbn; auto|]. intros x y Hxy.
      eapply simM_bind; [apply IH; intros; apply Hf; cbn; auto|]. intros xs ys Hxs.
      apply simM_ret; constructor; auto.
  Qed.
  Lemma simM_foldM {A S} (Q : S -> S -> Prop) (h h' : S -> A -> M S) l s s' :
    Q s s' -> (forall a s s', In a l -> Q s s' -> simM Q (h s a) (h' s' a)) ->
    simM Q (foldM h l s) (foldM h' l s').
  Proof.
    revert s s'; induction l as [|a l IH]; intros s s' Hs Hg; cbn [foldM].
    - apply simM_ret; auto.
    - eapply simM_bind; [apply Hg; cbn; auto|]. intros; apply IH; auto. intros; apply Hg; cbn; auto.
  Qed.

  Lemma sim_evaluate_gen (vs vs' : vals T) a : forall b,
    (forall v w, occurs v a -> occurs w b -> sim v w -> evaluate vs v = evaluate vs' w) ->
    sim a b -> evaluate vs a = evaluate vs' b.
  Proof.
    induction a as [i v|i s kd|i args IH|i a IH|i a1 a2 IH1 IH2|i a1 a2 IH1 IH2|i a IH] using node_ind'; intros b Hv E;
      destruct b as [j w|j s' kd'|j args'|j b|j b1 b2|j b1 b2|j b]; try (inversion E; fail).
    - inversion E; subst. reflexivity.
    - apply Hv; [split; [reflexivity|constructor]|split; [reflexivity|constructor]|exact E].
    - assert (Ea : map (er g) args = map (er e0) args') by (inversion E; auto). clear E.
      assert (Hv' : forall x y v w, In x args -> In y args' -> occurs v x -> occurs w y -> sim v w -> evaluate vs v = evaluate vs' w).
      { intros x y v w Hx Hy [V1 V2] [W1 W2]. apply Hv; split; auto; eapply sub_arg; eauto. }
      clear Hv. cbn [evaluate]. generalize (@n0 T _) as acc.
      revert args' Ea Hv'. induction IH as [|x l Hx Hl IHl]; intros [|y l'] Ea Hv' acc; try discriminate; [reflexivity|].
      cbn [map] in Ea. inversion Ea as [[E1 E2]]. cbn [fold_left].
      rewrite (Hx y); [|intros v w; apply (Hv' x y); cbn; auto|exact E1].
      apply IHl; [exact E2|]. intros x' y' v w Hx' Hy'. apply (Hv' x' y'); cbn; auto.
    - cbn [evaluate]. rewrite (IH b); [reflexivity| |inversion E; assumption].
      intros v w [V1 V2] [W1 W2]. apply Hv; split; auto; eapply sub_arg; cbn; eauto.
    - cbn [evaluate]. rewrite (IH1 b1), (IH2 b2); [reflexivity| |inversion E; assumption| |inversion E; assumption];
      intros v w [V1 V2] [W1 W2]; apply Hv; split; auto; (eapply sub_arg; [|eassumption]; cbn; auto).
    - cbn [evaluate]. rewrite (IH1 b1), (IH2 b2); [reflexivity| |inversion E; assumption| |inversion E; assumption];
      intros v w [V1 V2] [W1 W2]; apply Hv; split; auto; (eapply sub_arg; [|eassumption]; cbn; auto).
    - cbn [evaluate]. rewrite (IH b); [reflexivity| |inversion E; assumption].
      intros v w [V1 V2] [W1 W2]. apply Hv; split; auto; eapply sub_arg; cbn; eauto.
  Qed.
  Lemma sim_evaluate_nil a b : sim a b -> evaluate [] a = evaluate [] b.
  Proof.
    apply sim_evaluate_gen. intros v w [V _] [W _] _. destruct v, w; try discriminate. reflexivity.
  Qed.

  Lemma sim_icwv a b (v : T) : sim a b -> is_constant_with_value a v = is_constant_with_value b v.
  Proof. destruct a, b; cbn; intros E; inversion E; reflexivity. Qed.
  Lemma sim_is_constant (a b : node T) : sim a b -> is_constant a = is_constant b.
  Proof. destruct a, b; cbn; intros E; inversion E; reflexivity. Qed.

  Lemma sim_const i j (v : T) : sim (NConst i v) (NConst j v). Proof. reflexivity. Qed.
  Lemma simM_const (v : T) : simM sim (mk_const v) (mk_const v).
  Proof. intros k k'. reflexivity. Qed.
  Lemma simM_add (l l' : list (node T)) : map (er g) l = map (er e0) l' -> simM sim (mk_add l) (mk_add l').
  Proof.
    intros E k k'. unfold mk_add. replace (length l') with (length l).
    - destruct (length l <? 2); auto. unfold sim; cbn. congruence.
    - rewrite <- (map_length (er g) l), E, map_length. reflexivity.
  Qed.
  Lemma simM_mul (a b a' b' : node T) : sim a a' -> sim b b' -> simM sim (mk_mul a b) (mk_mul a' b').
  Proof. intros E1 E2 k k'. unfold sim in *; cbn. congruence. Qed.
  Lemma simM_div (a b a' b' : node T) : sim a a' -> sim b b' -> simM sim (mk_div a b) (mk_div a' b').
  Proof. intros E1 E2 k k'. unfold sim in *; cbn. congruence. Qed.

  Lemma map_er_F2 (l l' : list (node T)) : map (er g) l = map (er e0) l' <-> Forall2 sim l l'.
  Proof.
    revert l'; induction l as [|a l IH]; intros [|b l']; cbn; split; intros E; try discriminate;
      try (inversion E; fail); auto.
    - inversion E. constructor; auto. apply IH; auto.
    - inversion E; subst. f_equal; auto. apply IH; auto.
  Qed.

  Lemma add_inner_sim c l l' x x' :
    map (er g) l = map (er e0) l' -> sim x x' ->
    exists c1 l1 l1', add_inner (c, l) x = (c1, l1) /\ add_inner (c, l') x' = (c1, l1') /\
                      map (er g) l1 = map (er e0) l1'.
  Proof.
    intros El Ex. destruct x, x'; cbn in Ex; unfold sim in Ex; cbn in Ex; inversion Ex; subst;
      cbn [add_inner]; do 3 eexists; split; try reflexivity; split; try reflexivity; auto;
        rewrite !map_app; cbn [map er]; congruence.
  Qed.
  Lemma fold_add_inner_sim xs xs' c l l' :
    map (er g) xs = map (er e0) xs' -> map (er g) l = map (er e0) l' ->
    exists c1 l1 l1', fold_left add_inner xs (c, l) = (c1, l1) /\
                      fold_left add_inner xs' (c, l') = (c1, l1') /\ map (er g) l1 = map (er e0) l1'.
  Proof.
    revert xs' c l l'; induction xs as [|x xs IH]; intros [|x' xs'] c l l' Ex El; try discriminate.
    - cbn. exists c, l, l'. auto.
    - cbn [map] in Ex. inversion Ex as [[E1 E2]].
      destruct (add_inner_sim c l l' x x' El E1) as (c1 & l1 & l1' & A & B & C).
      cbn [fold_left]. rewrite A, B. apply IH; auto.
  Qed.
  Lemma add_outer_sim c l l' x x' :
    map (er g) l = map (er e0) l' -> sim x x' ->
    exists c1 l1 l1', add_outer (c, l) x = (c1, l1) /\ add_outer (c, l') x' = (c1, l1') /\
                      map (er g) l1 = map (er e0) l1'.
  Proof.
    intros El Ex. destruct x, x'; cbn in Ex; unfold sim in Ex; cbn in Ex; inversion Ex; subst;
      cbn [add_outer]; try (apply fold_add_inner_sim; auto; fail);
        do 3 eexists; split; try reflexivity; split; try reflexivity; auto;
        rewrite !map_app; cbn [map er]; congruence.
  Qed.

  Lemma add_other_sim a b a' b' : sim a a' -> sim b b' -> simM sim (add_other a b) (add_other a' b').
  Proof.
    intros Ea Eb. unfold add_other.
    destruct (add_outer_sim n0 [] [] a a' eq_refl Ea) as (c1 & l1 & l1' & A & B & C).
    destruct (add_outer_sim c1 l1 l1' b b' C Eb) as (c2 & l2 & l2' & D & E & G).
    cbn [fold_left]. rewrite A, B, D, E.
    destruct l2 as [|y l2], l2' as [|y' l2']; try discriminate; [apply simM_const|].
    destruct (negb (neqb c2 n0)).
    - eapply simM_bind; [apply simM_const|]. intros x x' Hx. apply simM_add.
      rewrite !map_app. cbn [map]. rewrite Hx. cbn [map] in G. congruence.
    - apply simM_add; auto.
  Qed.

  Lemma add_nn_sim a b a' b' : sim a a' -> sim b b' -> simM sim (add_nn a b) (add_nn a' b').
  Proof.
    intros Ea Eb. unfold add_nn. rewrite (sim_icwv a a' _ Ea), (sim_icwv b b' _ Eb).
    destruct (is_constant_with_value a' n0); [apply simM_ret; auto|].
    destruct (is_constant_with_value b' n0); [apply simM_ret; auto|]. apply add_other_sim; auto.
  Qed.

  Lemma mul_cn_sim r : forall s s' r', sim s s' -> sim r r' -> simM sim (mul_cn s r) (mul_cn s' r').
  Proof.
    induction r as [r IH] using node_ind_args. intros s s' r' Es Er.
    assert (G : forall (n n' : node T), n = n -> simM sim
       (if is_constant_with_value s n0 || is_constant_with_value r n0 then mk_const n0
        else if is_constant_with_value s n1 then ret r
        else if is_constant_with_value r n1 then ret s
        else if is_constant s && is_constant r then mk_const (nmul (evaluate [] s) (evaluate [] r))
        else match r with NAdd _ args => bind (mapM (mul_cn s) args) (fun l => mk_add l) | _ => mk_mul s r end)
       (if is_constant_with_value s' n0 || is_constant_with_value r' n0 then mk_const n0
        else if is_constant_with_value s' n1 then ret r'
        else if is_constant_with_value r' n1 then ret s'
        else if is_constant s' && is_constant r' then mk_const (nmul (evaluate [] s') (evaluate [] r'))
        else match r' with NAdd _ args => bind (mapM (mul_cn s') args) (fun l => mk_add l) | _ => mk_mul s' r' end)).
    { intros _ _ _.
      rewrite (sim_icwv s s' n0 Es), (sim_icwv r r' n0 Er), (sim_icwv s s' n1 Es), (sim_icwv r r' n1 Er),
        (sim_is_constant s s' Es), (sim_is_constant r r' Er), (sim_evaluate_nil s s' Es), (sim_evaluate_nil r r' Er).
      destruct (is_constant_with_value s' n0 || is_constant_with_value r' n0); [apply simM_const|].
      destruct (is_constant_with_value s' n1); [apply simM_ret; auto|].
      destruct (is_constant_with_value r' n1); [apply simM_ret; auto|].
      destruct (is_constant s' && is_constant r'); [apply simM_const|].
      destruct r as [| |i args| | | |], r' as [| |i' args'| | | |]; try (inversion Er; fail); try (apply simM_mul; auto; fail).
      assert (Ea : map (er g) args = map (er e0) args') by (inversion Er; auto).
      eapply simM_bind.
      - apply (simM_mapM sim sim); [apply map_er_F2; exact Ea|]. intros; apply IH; auto.
      - intros l l' Hl. apply simM_add, map_er_F2; auto. }
    destruct r; destruct r'; apply (G s s); reflexivity.
  Qed.
  Lemma mul_nc_sim s : forall r r' s', sim s s' -> sim r r' -> simM sim (mul_nc s r) (mul_nc s' r').
  Proof.
    induction s as [s IH] using node_ind_args. intros r r' s' Es Er.
    assert (G : forall (n n' : node T), n = n -> simM sim
       (if is_constant_with_value s n0 || is_constant_with_value r n0 then mk_const n0
        else if is_constant_with_value s n1 then ret r
        else if is_constant_with_value r n1 then ret s
        else if is_constant s && is_constant r then mk_const (nmul (evaluate [] s) (evaluate [] r))
        else match s with NAdd _ args => bind (mapM (fun x => mul_nc x r) args) (fun l => mk_add l) | _ => mk_mul s r end)
       (if is_constant_with_value s' n0 || is_constant_with_value r' n0 then mk_const n0
        else if is_constant_with_value s' n1 then ret r'
        else if is_constant_with_value r' n1 then ret s'
        else if is_constant s' && is_constant r' then mk_const (nmul (evaluate [] s') (evaluate [] r'))
        else match s' with NAdd _ args => bind (mapM (fun x => mul_nc x r') args) (fun l => mk_add l) | _ => mk_mul s' r' end)).
    { intros _ _ _.
      rewrite (sim_icwv s s' n0 Es), (sim_icwv r r' n0 Er), (sim_icwv s s' n1 Es), (sim_icwv r r' n1 Er),
        (sim_is_constant s s' Es), (sim_is_constant r r' Er), (sim_evaluate_nil s s' Es), (sim_evaluate_nil r r' Er).
      destruct (is_constant_with_value s' n0 || is_constant_with_value r' n0); [apply simM_const|].
      destruct (is_constant_with_value s' n1); [apply simM_ret; auto|].
      destruct (is_constant_with_value r' n1); [apply simM_ret; auto|].
      destruct (is_constant s' && is_constant r'); [apply simM_const|].
      destruct s as [| |i args| | | |], s' as [| |i' args'| | | |]; try (inversion Es; fail); try (apply simM_mul; auto; fail).
      assert (Ea : map (er g) args = map (er e0) args') by (inversion Es; auto).
      eapply simM_bind.
      - apply (simM_mapM sim sim); [apply map_er_F2; exact Ea|]. intros; apply IH; auto.
      - intros l l' Hl. apply simM_add, map_er_F2; auto. }
    destruct s; destruct s'; apply (G r r); reflexivity.
  Qed.
  Lemma mul_nn_sim a b a' b' : sim a a' -> sim b b' -> simM sim (mul_nn a b) (mul_nn a' b').
  Proof.
    intros Es Er. unfold mul_nn.
    rewrite (sim_icwv a a' n0 Es), (sim_icwv b b' n0 Er), (sim_icwv a a' n1 Es), (sim_icwv b b' n1 Er),
        (sim_is_constant a a' Es), (sim_is_constant b b' Er), (sim_evaluate_nil a a' Es), (sim_evaluate_nil b b' Er).
    destruct (is_constant_with_value a' n0 || is_constant_with_value b' n0); [apply simM_const|].
    destruct (is_constant_with_value a' n1); [apply simM_ret; auto|].
    destruct (is_constant_with_value b' n1); [apply simM_ret; auto|].
    destruct (is_constant a' && is_constant b'); [apply simM_const|].
    destruct a as [| |i args| | | |], a' as [| |i' args'| | | |]; try (inversion Es; fail);
      destruct b as [| |j brgs| | | |], b' as [| |j' brgs'| | | |]; try (inversion Er; fail);
        try (apply simM_mul; auto; fail).
    - assert (Ea : map (er g) brgs = map (er e0) brgs') by (inversion Er; auto).
      eapply simM_bind.
      + apply (simM_mapM sim sim); [apply map_er_F2; exact Ea|]. intros; apply mul_cn_sim; auto.
      + intros l l' Hl. apply simM_add, map_er_F2; auto.
    - assert (Ea : map (er g) args = map (er e0) args') by (inversion Es; auto).
      eapply simM_bind.
      + apply (simM_mapM sim sim); [apply map_er_F2; exact Ea|]. intros; apply mul_nc_sim; auto.
      + intros l l' Hl. apply simM_add, map_er_F2; auto.
  Qed.
  Lemma mul_sn_sim r : forall s r', sim r r' -> simM sim (mul_sn s r) (mul_sn s r').
  Proof.
    induction r as [r IH] using node_ind_args. intros s r' Er.
    assert (Ec := sim_is_constant r r' Er). assert (E1 := sim_icwv r r' n1 Er).
    destruct r as [| |i args| | | |], r' as [| |i' args'| | | |]; try (inversion Er; fail);
      cbn [mul_sn]; rewrite ?E1, ?Ec; cbn [is_constant];
        destruct (neqb s n0); cbn [orb]; try apply simM_const;
          try (inversion Er; subst; apply simM_const);
          destruct (neqb s n1); try (apply simM_ret; auto; fail);
            cbn [is_constant_with_value];
            try (eapply simM_bind; [apply simM_const|]; intros; apply simM_mul; auto; fail).
    assert (Ea : map (er g) args = map (er e0) args') by (inversion Er; auto).
    eapply simM_bind.
    - apply (simM_mapM sim sim); [apply map_er_F2; exact Ea|]. intros; apply IH; auto.
    - intros l l' Hl. apply simM_add, map_er_F2; auto.
  Qed.
  Lemma neg_n_sim a a' : sim a a' -> simM sim (neg_n a) (neg_n a').
  Proof.
    intros E. unfold neg_n. destruct a, a'; try (inversion E; fail); try (apply mul_sn_sim; auto; fail).
    inversion E; subst. apply simM_const.
  Qed.
  Lemma div_nn_sim a b a' b' : sim a a' -> sim b b' -> simM sim (div_nn a b) (div_nn a' b').
  Proof.
    intros Es Er. unfold div_nn.
    rewrite (sim_icwv a a' n0 Es), (sim_icwv b b' n0 Er), (sim_icwv b b' n1 Er),
        (sim_is_constant a a' Es), (sim_is_constant b b' Er), (sim_evaluate_nil a a' Es), (sim_evaluate_nil b b' Er).
    destruct (is_constant_with_value b' n0); [apply simM_fail|].
    destruct (is_constant_with_value b' n1); [apply simM_ret; auto|].
    destruct (is_constant_with_value a' n0); [apply simM_const|].
    destruct (is_constant a' && is_constant b'); [apply simM_const|]. apply simM_div; auto.
  Qed.
  Lemma div_sn_sim s b b' : sim b b' -> simM sim (div_sn s b) (div_sn s b').
  Proof.
    intros Er. unfold div_sn.
    rewrite (sim_icwv b b' n0 Er), (sim_icwv b b' n1 Er), (sim_is_constant b b' Er), (sim_evaluate_nil b b' Er).
    destruct (is_constant_with_value b' n0); [apply simM_fail|].
    destruct (is_constant_with_value b' n1); [apply simM_const|].
    destruct (neqb s n0); [apply simM_const|].
    destruct (is_constant b'); [apply simM_const|].
    eapply simM_bind; [apply simM_const|]. intros; apply simM_div; auto.
  Qed.
  Lemma sub_nn_sim a b a' b' : sim a a' -> sim b b' -> simM sim (sub_nn a b) (sub_nn a' b').
  Proof.
    intros Ea Eb. unfold sub_nn. eapply simM_bind; [apply mul_sn_sim; exact Eb|]. intros; apply add_nn_sim; auto.
  Qed.
End Sim.

Section Same.
  Context {T : Type} `{Num T}.
  Notation sim := (@gsim T e0).
  Lemma sim_refl (a : node T) : sim a a. Proof. reflexivity. Qed.
  Lemma sim_evaluate (vs : vals T) a b : sim a b -> evaluate vs a = evaluate vs b.
  Proof.
    intros E. apply (sim_evaluate_gen e0); [|exact E]. intros v w [V _] [W _] Evw.
    destruct v, w; try discriminate. inversion Evw; subst. reflexivity.
  Qed.

  (** The same node differentiated at two different times. *)
  Lemma partial_sim (n c : node T) : simM sim (partial n c) (partial n c).
  Proof.
    destruct n as [i v|i s kd|i args|i a|i a b|i a b|i a]; cbn [partial]; try apply (simM_const e0).
    - destruct c; try apply (simM_const e0). destruct (_ =? _); apply (simM_const e0).
    - destruct (existsb _ _); apply (simM_const e0).
    - destruct (ptr_eq a c); [|apply (simM_const e0)].
      eapply (simM_bind sim); [|intros; apply (neg_n_sim e0); auto].
      unfold sin_n. destruct a; try apply (simM_const e0); intros k k'; reflexivity.
    - destruct (ptr_eq a c); [apply (div_sn_sim e0), sim_refl|].
      destruct (ptr_eq b c); [|apply (simM_const e0)].
      eapply simM_bind; [apply (neg_n_sim e0), sim_refl|]. intros.
      eapply simM_bind; [apply (mul_nn_sim e0); apply sim_refl|]. intros. apply (div_nn_sim e0); auto.
    - destruct (ptr_eq a c); [apply simM_ret, sim_refl|].
      destruct (ptr_eq b c); [apply simM_ret, sim_refl|]. apply (simM_const e0).
    - destruct (ptr_eq a c); [|apply (simM_const e0)].
      unfold cos_n. destruct a; try apply (simM_const e0); intros k k'; reflexivity.
  Qed.
  Lemma path_prod_sim (p : list (node T)) : simM sim (path_prod p) (path_prod p).
  Proof.
    unfold path_prod. eapply simM_bind; [apply (simM_const e0)|]. intros a b Hab.
    apply (simM_foldM sim); auto. intros pr s s' _ Hs.
    eapply simM_bind; [apply partial_sim|]. intros; apply (mul_nn_sim e0); auto.
  Qed.
  Lemma path_sum_sim (ps : list (list (node T))) : simM sim (path_sum ps) (path_sum ps).
  Proof.
    unfold path_sum. eapply simM_bind; [apply (simM_const e0)|]. intros a b Hab.
    apply (simM_foldM sim); auto. intros p s s' _ Hs.
    eapply simM_bind; [apply path_prod_sim|]. intros; apply (add_nn_sim e0); auto.
  Qed.
End Same.
