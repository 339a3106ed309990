(** Facts about standard problems used by the property files: tightest bounds,
    affine recognition of the expressions built on the way, Hessian entries. *)
From Verif Require Import Base Num Node NodeInd NodeDiff NodeStd Constraint Matrix Problem ModelStd Model
     ExprSpec World MapProofs StdPropProofs GradProofs CompProofs PanicProofs OccProofs ExprExtra ConstrProofs PartsProofs
     MatSpec BuildProofs BuildMain StdMain.
From Coq Require Import Reals Lra.

(** ** Bounds *)
Section Bound.
  Variable le : R -> R -> Prop.
  Variable better : X -> X -> bool.
  Hypothesis le_trans : forall a b c, le a b -> le b c -> le a c.
  Hypothesis le_refl : forall a, le a a.
  Hypothesis le_total : forall a b, ~ le a b -> le b a.
  Hypothesis better_le : forall a b, better (Some a) (Some b) = true <-> le a b.
  Hypothesis better_none : forall b, better None b = false.

  Lemma bfold_best (v : nodeX) (B : R) es :
    exists r, fst (bfold better v es (Some B, None)) = Some r /\ le r B /\
      (forall w b c, In (w, Some b, c) es -> ptr_eq v w = true -> le r b) /\
      match snd (bfold better v es (Some B, None)) with
      | Some c => exists l1 w l2, es = l1 ++ (w, Some r, c) :: l2 /\ ptr_eq v w = true /\
                    forall w' b c', In (w', Some b, c') l2 -> ptr_eq v w' = true -> ~ le b r
      | None => r = B /\ forall w b c, In (w, Some b, c) es -> ptr_eq v w = true -> ~ le b B
      end.
  Proof.
    induction es as [|[[w x] c] es IH] using rev_ind.
    - exists B. cbn. repeat split; auto; intros ? ? ? [].
    - unfold bfold in *. rewrite fold_left_app. cbn [fold_left fst snd].
      match type of IH with exists r, fst ?x = _ /\ _ => set (st := x) in * end. destruct IH as (r & E & HB & Hle & Hc).
      destruct (ptr_eq v w && better x (fst st)) eqn:Eb.
      + apply andb_true_iff in Eb as [Ep Eb]. rewrite E in Eb. destruct x as [b|]; [|rewrite better_none in Eb; discriminate].
        apply better_le in Eb. exists b. cbn [fst snd]. split; [reflexivity|]. split; [eauto|]. split.
        * intros w' b' c' Hin Hp. apply in_app_or in Hin as [Hin|[Hin|[]]]; [eauto|]. inversion Hin; subst. auto.
        * exists es, w, []. split; [reflexivity|]. split; [exact Ep|]. intros ? ? ? [].
      + assert (Hnew : forall w' b' c', In (w', Some b', c') [(w, x, c)] -> ptr_eq v w' = true -> ~ le b' r).
        { intros w' b' c' [Hin|[]] Hp Hl. inversion Hin; subst. rewrite Hp, E in Eb. cbn in Eb.
          apply better_le in Hl. congruence. }
        exists r. split; [exact E|]. split; [exact HB|]. split.
        * intros w' b' c' Hin Hp. apply in_app_or in Hin as [Hin|Hin]; [eauto|]. apply le_total. eauto.
        * destruct (snd st) as [c0|].
          -- destruct Hc as (l1 & w0 & l2 & Ees & Ep & Hl). exists l1, w0, (l2 ++ [(w, x, c)]). split.
             { rewrite Ees, <- app_assoc. reflexivity. }
             split; [exact Ep|]. intros w' b' c' Hin Hp. apply in_app_or in Hin as [Hin|Hin]; eauto.
          -- destruct Hc as [-> Hl]. split; [reflexivity|]. intros w' b' c' Hin Hp.
             apply in_app_or in Hin as [Hin|Hin]; eauto.
  Qed.
End Bound.

(** ** Affine expressions *)
Section Aff.
  Context {T : Type} `{Num T} `{HashOrd}.
  Definition affb (n : node T) : bool := p_affine (std_properties n).

  Lemma affb_add i args : affb (NAdd i args) = forallb affb args.
  Proof.
    unfold affb. cbn [std_properties].
    assert (G : forall l p, p_affine (fold_left (fun acc x => let q := std_properties x in
          mk_std_prop (p_affine acc && p_affine q) (fold_left merge_add (p_a q) (p_a acc)) (nadd (p_b acc) (p_b q))) l p)
        = p_affine p && forallb (fun n => p_affine (std_properties n)) l).
    { induction l as [|x l IH]; intros p; cbn [fold_left forallb]; [rewrite andb_true_r; reflexivity|].
      rewrite IH. cbn [p_affine]. rewrite andb_assoc. reflexivity. }
    rewrite G. reflexivity.
  Qed.
  Lemma affb_terms n : affb n = forallb affb (nonconsts (terms n)).
  Proof.
    assert (G : forall l, forallb affb l = forallb affb (nonconsts l)).
    { induction l as [|x l IH]; [reflexivity|]. unfold nonconsts in *. cbn [filter].
      destruct (is_constant x) eqn:E; cbn [negb forallb]; rewrite IH; auto. destruct x; try discriminate. reflexivity. }
    rewrite <- G. destruct n; cbn [terms forallb]; try (rewrite andb_true_r; reflexivity). apply affb_add.
  Qed.
  Lemma add_affb a b k r k' : add_nn a b k = Ok (r, k') -> affb r = affb a && affb b.
  Proof. intros E. apply add_nn_terms in E. rewrite !affb_terms, E, forallb_app. reflexivity. Qed.

  Lemma nonconst_occurs nsq k (S : node T -> Prop) n : world nsq k S -> S n -> is_constant n = false -> exists v, occurs v n.
  Proof.
    intros HW. induction n as [i w|i st kd|i args IH|i a IHa|i a b IHa IHb|i a b IHa IHb|i a IHa] using node_ind';
      intros Sn Hc; try discriminate.
    - exists (NVar i st kd). split; [reflexivity|constructor].
    - pose proof (w_shape _ _ _ HW _ Sn) as (Hl & Ha). destruct args as [|a [|b args]]; cbn in Hl; try lia.
      cbn [add_args_ok] in Ha. apply andb_true_iff in Ha as [Ha _]. apply andb_true_iff in Ha as [_ Ha].
      inversion IH as [|? ? IHa _]; subst. destruct IHa as (v & Hv).
      + eapply w_closed; eauto. cbn; auto.
      + destruct (is_constant a); auto; discriminate.
      + exists v. eapply occurs_arg; eauto. cbn; auto.
    - pose proof (w_shape _ _ _ HW _ Sn) as Ha. cbn in Ha. destruct IHa as (v & Hv); auto.
      + eapply w_closed; eauto. cbn; auto.
      + exists v. eapply occurs_arg; eauto. cbn; auto.
    - pose proof (w_shape _ _ _ HW _ Sn) as (Ha & _). apply andb_false_iff in Ha as [Ha|Ha].
      + destruct IHa as (v & Hv); auto; [eapply w_closed; eauto; cbn; auto|]. exists v. eapply occurs_arg; eauto. cbn; auto.
      + destruct IHb as (v & Hv); auto; [eapply w_closed; eauto; cbn; auto|]. exists v. eapply occurs_arg; eauto. cbn; auto.
    - pose proof (w_shape _ _ _ HW _ Sn) as Ha. cbn in Ha. apply andb_false_iff in Ha as [Ha|Ha].
      + destruct IHa as (v & Hv); auto; [eapply w_closed; eauto; cbn; auto|]. exists v. eapply occurs_arg; eauto. cbn; auto.
      + destruct IHb as (v & Hv); auto; [eapply w_closed; eauto; cbn; auto|]. exists v. eapply occurs_arg; eauto. cbn; auto.
    - pose proof (w_shape _ _ _ HW _ Sn) as Ha. cbn in Ha. destruct IHa as (v & Hv); auto.
      + eapply w_closed; eauto. cbn; auto.
      + exists v. eapply occurs_arg; eauto. cbn; auto.
  Qed.

  Lemma affb_scaled nsq k (S : node T -> Prop) i j s n :
    world nsq k S -> S n -> is_constant n = false -> affb (NMul i (NConst j s) n) = affb n.
  Proof.
    intros HW Sn Hc. unfold affb. cbn [std_properties p_affine p_a length]. rewrite Nat.eqb_refl, andb_true_r.
    destruct (nonconst_occurs nsq k S n HW Sn Hc) as (v & Hv). apply (keys_are_vars nsq k S n HW Sn) in Hv.
    destruct (p_a (std_properties n)); [destruct Hv|]. reflexivity.
  Qed.

  Lemma mul_sn_affb nsq k0 (S : node T -> Prop) s a k r k' :
    world nsq k0 S -> S a -> neqb s n0 = false -> mul_sn s a k = Ok (r, k') -> affb r = affb a.
  Proof.
    intros HW Sa Hs. revert Sa k r k'.
    induction a as [i w|i st kd|i args IH|i a _|i a b _ _|i a b _ _|i a _] using node_ind'; intros Sa k r k' E;
      cbn [mul_sn is_constant is_constant_with_value orb] in E; rewrite Hs in E; cbn [orb] in E.
    1: { inversion E; subst. reflexivity. }
    all: destruct (neqb s n1) eqn:Hv1; [inversion E; subst; reflexivity|].
    2: { rewrite Forall_forall in IH. apply bind_ok in E as (rs & k1 & E1 & E2).
         unfold mk_add in E2. destruct (_ <? _); [discriminate|]. inversion E2; subst. rewrite !affb_add.
         assert (Hin : forall x, In x args -> S x) by (intros x Hx; eapply w_closed; eauto).
         clear -E1 IH Hin. revert k rs k1 E1. induction args as [|x args IHl]; intros k rs k1 E1.
         - inversion E1; subst; reflexivity.
         - cbn [mapM] in E1. apply bind_ok in E1 as (y & k2 & Ey & E1). apply bind_ok in E1 as (ys & k3 & Eys & E1).
           inversion E1; subst. cbn [forallb]. rewrite (IH x (or_introl eq_refl) (Hin x (or_introl eq_refl)) _ _ _ Ey). f_equal.
           apply (IHl (fun x Hx => IH x (or_intror Hx)) (fun x Hx => Hin x (or_intror Hx)) _ _ _ Eys). }
    all: apply bind_ok in E as (d & k1 & E1 & E2); inversion E1; subst; inversion E2; subst;
      apply (affb_scaled nsq k0 S); auto.
  Qed.

  Lemma sub_nn_affb nsq k0 (S : node T -> Prop) a b k r k' :
    world nsq k0 S -> S a -> S b -> neqb (nm1 : T) n0 = false -> sub_nn a b k = Ok (r, k') -> affb r = affb a && affb b.
  Proof.
    intros HW Sa Sb Hm E. unfold sub_nn in E. apply bind_ok in E as (m & k1 & E1 & E2).
    rewrite (add_affb _ _ _ _ _ E2), (mul_sn_affb nsq k0 S _ _ _ _ _ HW Sb Hm E1). reflexivity.
  Qed.
  Lemma neg_n_affb nsq k0 (S : node T -> Prop) a k r k' :
    world nsq k0 S -> S a -> neqb (nm1 : T) n0 = false -> neg_n a k = Ok (r, k') -> affb r = affb a.
  Proof.
    intros HW Sa Hm E. destruct a; cbn [neg_n] in E; try (exact (mul_sn_affb nsq k0 S _ _ _ _ _ HW Sa Hm E)).
    inversion E; subst; reflexivity.
  Qed.
  Lemma neg_n_occurs (v a : node T) k r k' :
    neqb (nm1 : T) n0 = false -> neg_n a k = Ok (r, k') -> occurs v r <-> occurs v a.
  Proof.
    intros Hm E. destruct a; cbn [neg_n] in E; try (exact (mul_sn_occurs v _ _ _ _ _ Hm E)).
    inversion E; subst. split; intros Ho; destruct (occurs_const _ _ _ Ho).
  Qed.

  (** A constraint gives a nonlinear function iff one of its sides is not affine. *)
  Lemma constr_std_nf nsq k S c ar jr p ar1 jr1 k1 :
    world nsq k S -> S (clhs c) -> S (crhs c) -> neqb (nm1 : T) n0 = false ->
    constr_std c ar jr k = Ok ((p, ar1, jr1), k1) ->
    (length (cs_f p) =? 0) = affb (clhs c) && affb (crhs c).
  Proof.
    intros HW Sl Sr Hm E. apply constr_std_inv in E as (e & k0 & sc & k2 & E1 & E2 & E).
    rewrite <- (sub_nn_affb nsq k S _ _ _ _ _ HW Sl Sr Hm E1). unfold affb.
    destruct E as [x w Ha Hp Hv Hne|Ha He|s Ha Hne Hb Hs|Ha He|s f k3 m1 Ha Hne Hs Ef Hm1]; rewrite Ha; reflexivity.
  Qed.
  Lemma parts_nf nsq S cs ar jr k ps ar' jr' k' :
    world nsq k S -> Forall (fun c => S (clhs c) /\ S (crhs c)) cs -> neqb (nm1 : T) n0 = false ->
    parts cs ar jr k ps ar' jr' k' ->
    (length (cs_f (cat ps)) =? 0) = forallb (fun c => affb (clhs c) && affb (crhs c)) cs.
  Proof.
    intros HW HS Hm HP; revert S HW HS.
    induction HP as [ar jr k|c cs ar jr k p ar1 jr1 k1 ps ar2 jr2 k2 E HP IH]; intros S HW HS; [reflexivity|].
    inversion HS as [|? ? [Sl Sr] HS']; subst.
    destruct (constr_std_in nsq k S c ar jr p ar1 jr1 k1 HW Sl Sr E) as (K1 & S1 & I1 & W1 & P1).
    cbn [forallb]. rewrite <- (constr_std_nf nsq k S c ar jr p ar1 jr1 k1 HW Sl Sr Hm E).
    rewrite <- (IH S1 W1); [|eapply Forall_impl; [|exact HS']; intros d []; auto].
    change (cat (p :: ps)) with (cstd_app p (cat ps)). unfold cstd_app. cbn [cs_f]. rewrite app_length.
    destruct (length (cs_f p)), (length (cs_f (cat ps))); reflexivity.
  Qed.

  (** ** The objective expression *)
  Definition obj_affine (o : objective T) : bool :=
    match o with Minimize f | Maximize f => affb f | EmptyObj => true end.
  Lemma obj_exp_affb nsq k S o k1 e k2 :
    world nsq k S -> match o with Minimize f | Maximize f => S f | EmptyObj => True end ->
    neqb (nm1 : T) n0 = false -> obj_exp o k1 = Ok (e, k2) -> affb e = obj_affine o.
  Proof.
    intros HW So Hm E. destruct o; cbn [obj_exp obj_affine] in *.
    - inversion E; subst; reflexivity.
    - exact (neg_n_affb nsq k S _ _ _ _ HW So Hm E).
    - inversion E; subst; reflexivity.
  Qed.
  Lemma obj_exp_occurs v o k e k' :
    neqb (nm1 : T) n0 = false -> obj_exp o k = Ok (e, k') ->
    occurs v e <-> match o with Minimize f | Maximize f => occurs v f | EmptyObj => False end.
  Proof.
    intros Hm E. destruct o; cbn [obj_exp] in E.
    - inversion E; subst; reflexivity.
    - exact (neg_n_occurs v _ _ _ _ Hm E).
    - inversion E; subst. split; [apply occurs_const|intros []].
  Qed.

  (** ** Hessian entries: each unordered pair once. *)
  Definition upairs (hs : list (node T * node T * node T)) : Prop :=
    NoDup (map fst hs) /\
    forall a b, In (a, b) (map fst hs) -> In (b, a) (map fst hs) -> a = b.

  Lemma hphi_upairs e k sc k' : std_components e k = Ok (sc, k') -> upairs (sc_hphi sc).
  Proof.
    intros E. apply std_components_ok in E as (_ & _ & _ & _ & E).
    destruct (p_affine (std_properties e)).
    - destruct E as [_ ->]. split; [constructor|intros a b []].
    - destruct E as (_ & dds & _ & _ & ->).
      assert (Hnd : NoDup (map fst (ord 3 k (p_a (std_properties e))))).
      { eapply Permutation_NoDup; [apply Permutation_map, Permutation_sym, ord_perm|].
        apply (nodupk_NoDup ptr_eq). apply ptr_eq_refl. apply keys_nodup. }
      split; [apply nz_entries_nodup, pairs_nodup; exact Hnd|].
      assert (G : forall p, In p (map fst (flat_map nz_entry (combine (pairs (map fst (ord 3 k (p_a (std_properties e))))) dds))) ->
                            In p (pairs (map fst (ord 3 k (p_a (std_properties e)))))).
      { intros p Hp. apply in_map_iff in Hp as ([q d] & <- & Hp). apply in_flat_map in Hp as ([q' d'] & H1' & H2').
        unfold nz_entry in H2'. destruct (is_constant_with_value _ _); [destruct H2'|]. destruct H2' as [X|[]].
        inversion X; subst. cbn [fst]. eapply in_combine_l; eauto. }
      intros a b Ha Hb. apply G in Ha. apply G in Hb. eapply pairs_asym; eauto.
  Qed.
  Lemma parts_upairs cs ar jr k ps ar' jr' k' :
    parts cs ar jr k ps ar' jr' k' -> Forall upairs (cs_h (cat ps)).
  Proof.
    induction 1 as [ar jr k|c cs ar jr k p ar1 jr1 k1 ps ar2 jr2 k2 E HP IH]; [constructor|].
    change (cat (p :: ps)) with (cstd_app p (cat ps)). unfold cstd_app. cbn [cs_h]. apply Forall_app. split; [|exact IH].
    apply constr_std_inv in E as (e & k0 & sc & k3 & E1 & E2 & E). apply hphi_upairs in E2.
    destruct E; cbn [cs_h]; constructor; auto.
  Qed.

  Section Hess.
    Variable vars : list (node T).
    Hypothesis Hnd : nodupk ptr_eq vars.
    Lemma ix_inj a b : In a vars -> In b vars -> ix vars a = ix vars b -> a = b.
    Proof.
      intros Ha Hb E. pose proof (ix_nth vars Hnd a Ha) as H1'. pose proof (ix_nth vars Hnd b Hb) as H2'. congruence.
    Qed.
    Lemma hess_of_lower n hs :
      upairs hs -> Forall (fun e => In (fst (fst e)) vars /\ In (snd (fst e)) vars) hs ->
      Forall (fun e => snd (fst e) <= fst (fst e) < length vars) (entries (hess_of vars n hs)) /\
      NoDup (map fst (entries (hess_of vars n hs))).
    Proof.
      intros [HN HA] HF. unfold entries, hess_of. cbn [coo_ri coo_ci coo_data].
      assert (E : forall l : list (node T * node T * node T),
        combine (combine (map (fun e => Nat.max (ix vars (fst (fst e))) (ix vars (snd (fst e)))) l)
                         (map (fun e => Nat.min (ix vars (fst (fst e))) (ix vars (snd (fst e)))) l)) (repeat (@n0 T _) (length l)) =
        map (fun e => (Nat.max (ix vars (fst (fst e))) (ix vars (snd (fst e))),
                       Nat.min (ix vars (fst (fst e))) (ix vars (snd (fst e))), n0)) l).
      { induction l as [|x l IH]; [reflexivity|]. cbn [map combine repeat length]. rewrite IH. reflexivity. }
      rewrite E. split.
      - rewrite Forall_map. eapply Forall_impl; [|exact HF]. cbn [fst snd]. intros e [H1' H2'].
        pose proof (ix_lt vars Hnd _ H1'). pose proof (ix_lt vars Hnd _ H2'). lia.
      - rewrite map_map. cbn [fst]. clear E. induction hs as [|[[a b] d] hs IH]; cbn [map]; [constructor|].
        inversion HN as [|? ? Hx HN']; inversion HF as [|? ? [Ia Ib] HF']; subst. cbn [fst snd] in *.
        constructor.
        + intros Hin. apply in_map_iff in Hin as ([[a' b'] d'] & Ee & Hin). cbn [fst snd] in Ee.
          rewrite Forall_forall in HF'. destruct (HF' _ Hin) as [Ia' Ib']. cbn [fst snd] in Ia', Ib'.
          assert (Hc : (ix vars a = ix vars a' /\ ix vars b = ix vars b') \/ (ix vars a = ix vars b' /\ ix vars b = ix vars a')).
          { inversion Ee. lia. }
          apply (in_map fst) in Hin. cbn [fst] in Hin. destruct Hc as [[E1 E2]|[E1 E2]].
          * apply ix_inj in E1; auto. apply ix_inj in E2; auto. subst. apply Hx; exact Hin.
          * apply ix_inj in E1; auto. apply ix_inj in E2; auto. subst a' b'.
            assert (a = b); [|subst; apply Hx; exact Hin]. apply HA; [left; reflexivity|right; exact Hin].
        + apply IH; auto. intros u w Hu Hw. apply HA; right; auto.
    Qed.
  End Hess.
End Aff.
