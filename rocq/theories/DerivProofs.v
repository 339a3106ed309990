(** Derivatives: worlds, values, the chain rule. *)
From Verif Require Import Base Num Node NodeDiff NodeInd World Fresh MapProofs EvalProofs
     StdPropProofs PathProofs.
From Coq Require Import Reals Lra.

(** Consecutive nodes of a path are linked by the argument relation. *)
Definition chain {T} (p : list (node T)) : Prop :=
  Forall (fun pr => In (snd pr) (arguments (fst pr))) (windows2 p).

Section Grow.
  Context {T : Type} `{Num T} `{HashOrd}.
  Variable nsq : bool.

  Lemma rpaths_head v n (p : list (node T)) : In p (rpaths v n) -> exists q, p = n :: q.
  Proof.
    rewrite rpaths_eq, in_app_iff. intros [Hp|Hp].
    - destruct (_ && _); [|destruct Hp]. destruct Hp as [<-|[]]. exists []; auto.
    - apply in_concat in Hp as (l & Hl & Hp). apply in_map_iff in Hl as (c & <- & Hc).
      apply in_map_iff in Hp as (q & <- & Hq). eauto.
  Qed.

  Lemma rpaths_chain v n (p : list (node T)) : In p (rpaths v n) -> chain p /\ Forall (fun x => sub x n) p.
  Proof.
    revert p; induction n as [n IH] using node_ind_args. intros p.
    rewrite rpaths_eq, in_app_iff. intros [Hp|Hp].
    - destruct (_ && _); [|destruct Hp]. destruct Hp as [<-|[]].
      split; [constructor|]. repeat constructor.
    - apply in_concat in Hp as (l & Hl & Hp). apply in_map_iff in Hl as (c & <- & Hc).
      apply in_map_iff in Hp as (q & <- & Hq). apply in_rev in Hc.
      destruct (IH c Hc q Hq) as [Hch Hs].
      destruct (rpaths_head _ _ _ Hq) as [q' ->]. split.
      + unfold chain. cbn [windows2]. constructor; auto.
      + constructor; [constructor|]. eapply Forall_impl; [|exact Hs]. intros x Hx.
        eapply sub_arg; eauto.
  Qed.

  (** The last node of a path to a variable is a variable, so no window starts
      at a constant and none of its lower ends is a constant. *)
  Lemma rpaths_no_const v n (p : list (node T)) :
    In p (rpaths v n) -> Forall (fun x => is_constant x = false) p.
  Proof.
    revert p; induction n as [n IH] using node_ind_args. intros p.
    rewrite rpaths_eq, in_app_iff. intros [Hp|Hp].
    - destruct (is_var n) eqn:E; [|destruct Hp]. destruct (_ && _); [|destruct Hp]. destruct Hp as [<-|[]].
      constructor; auto. destruct n; auto; discriminate.
    - apply in_concat in Hp as (l & Hl & Hp). apply in_map_iff in Hl as (c & <- & Hc).
      apply in_map_iff in Hp as (q & <- & Hq). apply in_rev in Hc. constructor; eauto.
      destruct n; auto. destruct Hc.
  Qed.

  Lemma foldM_grows {A} (g : A -> node T * node T -> M A) (Q : A -> (node T -> Prop) -> Prop)
        (P : node T * node T -> (node T -> Prop) -> Prop) l :
    (forall pr S S', incl S S' -> P pr S -> P pr S') ->
    (forall a pr k S, world nsq k S -> Q a S -> P pr S -> grows nsq k S (g a pr) Q) ->
    forall a k S, world nsq k S -> Q a S -> Forall (fun pr => P pr S) l -> grows nsq k S (foldM g l a) Q.
  Proof.
    intros HP Hg. induction l as [|pr l IH]; intros a k S HW Ha Hl; cbn [foldM].
    - apply grows_ret; auto.
    - inversion Hl; subst. eapply grows_bind; [apply Hg; auto|].
      intros a' k' S' Hk Hi HW' Ha'. apply IH; auto.
      eapply Forall_impl; [|eassumption]. cbn. intros pr' Hpr'. eapply HP; eauto.
  Qed.

  Lemma windows2_in (p : list (node T)) a b : In (a, b) (windows2 p) -> In a p /\ In b p.
  Proof.
    induction p as [|x [|y p] IH]; cbn [windows2]; try contradiction.
    intros [E|Hin]; [inversion E; subst; cbn; auto|].
    destruct (IH Hin) as [H1 H2]. split; right; auto.
  Qed.

  Lemma path_prod_grows k S p :
    world nsq k S -> Forall S p -> grows nsq k S (path_prod p) here.
  Proof.
    intros HW Hp. unfold path_prod. eapply grows_bind; [apply mk_const_grows; exact HW|].
    intros one k' S' _ Hi HW' [Hone _]. cbn beta in *.
    apply (foldM_grows _ here (fun pr S => S (fst pr) /\ S (snd pr))); auto.
    - intros pr S1 S2 H12 [H1 H2]; auto.
    - intros a pr k1 S1 HW1 Ha [H1 H2]. eapply grows_bind; [apply partial_grows; eauto|].
      intros d k2 S2 _ Hi2 HW2 Hd. apply mul_nn_grows; auto.
    - apply Forall_forall. intros [a b] Hab. apply windows2_in in Hab as [H1 H2].
      rewrite Forall_forall in Hp. cbn; auto.
  Qed.

  Lemma path_sum_grows k S ps :
    world nsq k S -> Forall (Forall S) ps -> grows nsq k S (path_sum ps) here.
  Proof.
    intros HW Hp. unfold path_sum. eapply grows_bind; [apply mk_const_grows; exact HW|].
    intros z k' S' _ Hi HW' [Hz _]. cbn beta in *.
    assert (Hp' : Forall (Forall S') ps).
    { eapply Forall_impl; [|exact Hp]. intros p. apply Forall_impl. exact Hi. }
    clear Hp HW S Hi k. revert z k' S' HW' Hz Hp'.
    induction ps as [|p ps IH]; intros z k S HW Hz Hp; cbn [foldM].
    - apply grows_ret; auto.
    - inversion Hp; subst. eapply grows_bind with (Q := here).
      + eapply grows_bind; [apply path_prod_grows; eauto|].
        intros d k2 S2 _ Hi2 HW2 Hd. apply add_nn_grows; auto.
      + intros d k2 S2 _ Hi2 HW2 Hd. apply IH; auto.
        eapply Forall_impl; [|eassumption]. intros q. apply Forall_impl. exact Hi2.
  Qed.

  Lemma path_prod_mono (p : list (node T)) : mono (path_prod p).
  Proof.
    unfold path_prod. apply mono_bind; [eapply fresh_mono, (fresh_const [])|].
    intros one. apply mono_foldM. intros s a. apply mono_bind; [eapply fresh_mono, partial_fresh|].
    intros d. eapply fresh_mono, mul_nn_fresh.
  Qed.
  Lemma path_sum_mono (ps : list (list (node T))) : mono (path_sum ps).
  Proof.
    unfold path_sum. apply mono_bind; [eapply fresh_mono, (fresh_const [])|].
    intros z. apply mono_foldM. intros s a. apply mono_bind; [apply path_prod_mono|].
    intros d. eapply fresh_mono, add_nn_fresh.
  Qed.

  (** What [derivatives] returns. *)
  Theorem derivatives_ok (self : node T) vars k ds k' :
    derivatives self vars k = Ok (ds, k') ->
    forallb is_var vars = true /\ k <= k' /\
    map fst ds = ord 2 k (sextend ptr_eq [] vars) /\
    forall v, smem ptr_eq v vars = true ->
      exists d k1 k2, hget ptr_eq v ds = Some d /\ path_sum (rpaths v self) k1 = Ok (d, k2) /\
                      k <= k1 /\ k1 <= k2 /\ k2 <= k'.
  Proof.
    unfold derivatives. intros E. apply bind_ok in E as (u & k0 & E0 & E).
    apply lift_ok in E0 as [E0 ->]. unfold check_vars in E0.
    destruct (forallb is_var vars) eqn:Hv; [|discriminate].
    apply bind_ok in E as (t & k0 & Et & E). inversion Et; subst t k0.
    apply bind_ok in E as (paths & k0 & Ep & E). apply lift_ok in Ep as [Ep ->].
    destruct (all_simple_paths_ok k self vars Hv) as (ps & Eps & Kps & Gps).
    rewrite Ep in Eps. inversion Eps; subst paths. clear Eps.
    apply dfold_ok in E as (Hk & K & Gno & Gyes).
    - split; [reflexivity|]. split; [exact Hk|]. split; [exact K|].
      intros v Hm. assert (Hin : existsb (ptr_eq v) (ord 2 k (sextend ptr_eq [] vars)) = true).
      { rewrite (existsb_perm _ _ _ (ord_perm _ 2 k _)).
        change (smem ptr_eq v (sextend ptr_eq [] vars) = true). rewrite psmem_sextend. exact Hm. }
      apply existsb_exists in Hin as (w & Hw & Evw).
      destruct (Gyes w Hw) as (ps' & d & k1 & k2 & H1 & H2 & H3 & H4).
      rewrite Gps in H1. destruct (smem ptr_eq w vars) eqn:Ew; [|discriminate].
      inversion H1; subst ps'.
      exists d, k1, k2. rewrite (pget_eq v w) by auto. split; [exact H2|]. split; [|exact H4].
      replace (rpaths v self) with (rpaths w self); auto.
      clear -Evw. induction self as [n IH] using node_ind_args. rewrite !rpaths_eq. f_equal.
      + rewrite (ptr_eq_sym n w), (ptr_eq_sym n v).
        rewrite (eqb_l ptr_eq ptr_eq_sym ptr_eq_trans v w n Evw). reflexivity.
      + f_equal. apply map_ext_in. intros c Hc. rewrite IH; auto. apply in_rev; auto.
    - intros a ps1 k1 d k2 E1 _. eapply path_sum_mono; eauto.
    - cbn [map app]. eapply pnodup_perm; [apply Permutation_sym, ord_perm|].
      apply pnodup_sextend. exact I.
  Qed.

  Theorem derivative_ok (self v d : node T) k k' :
    derivative self v k = Ok (d, k') ->
    is_var v = true /\ k <= k' /\ exists k1 k2, path_sum (rpaths v self) k1 = Ok (d, k2) /\ k <= k1 /\ k2 <= k'.
  Proof.
    unfold derivative. intros E. apply bind_ok in E as (ds & k1 & E1 & E2).
    apply lift_ok in E2 as [E2 ->]. unfold unwrap in E2.
    apply derivatives_ok in E1 as (Hv & Hk & K & G).
    destruct (G v) as (d' & k2 & k3 & H1 & H2 & H3 & H4 & H5).
    { unfold smem; cbn. rewrite ptr_eq_refl; auto. }
    rewrite H1 in E2. inversion E2; subst. cbn in Hv. rewrite andb_true_r in Hv.
    split; auto. split; [lia|]. exists k2, k3. repeat split; auto; lia.
  Qed.

  Lemma rpaths_world k S v n : world nsq k S -> S n -> Forall (Forall S) (rpaths v n).
  Proof.
    intros HW Hn. apply Forall_forall. intros p Hp. apply rpaths_chain in Hp as [_ Hp].
    eapply Forall_impl; [|exact Hp]. intros x Hx. eapply world_sub; eauto.
  Qed.

  (** The derivatives live in a larger world. *)
  Theorem derivatives_grows k S self vars :
    world nsq k S -> S self ->
    grows nsq k S (derivatives self vars) (fun ds S' => Forall (fun kv => S' (snd kv)) ds).
  Proof.
    intros HW Hs. unfold derivatives.
    eapply grows_bind with (Q := fun _ _ => True); [apply grows_lift; auto|].
    intros _ k0 S0 _ Hi0 HW0 _.
    eapply grows_bind with (Q := fun _ _ => True).
    { intros a k' E; inversion E; subst. split; [lia|]. exists S0. auto using incl_refl. }
    intros t k1 S1 _ Hi1 HW1 _.
    eapply grows_bind with
      (Q := fun ps S => forallb is_var vars = true /\
               forall v, hget ptr_eq v ps = if smem ptr_eq v vars then Some (rpaths v self) else None).
    { apply grows_lift; auto. intros a Ea. destruct (forallb is_var vars) eqn:Hv.
      - destruct (all_simple_paths_ok t self vars Hv) as (ps & Eps & _ & G).
        rewrite Eps in Ea. inversion Ea; subst. auto.
      - rewrite all_simple_paths_nonvar in Ea; auto; discriminate. }
    intros ps k2 S2 _ Hi2 HW2 [Hv Hps].
    assert (Hs2 : S2 self) by auto.
    enough (G : forall L ds k S, world nsq k S -> S self -> Forall (fun kv => S (snd kv)) ds ->
       grows nsq k S (foldM (dfold ps) L ds) (fun ds S' => Forall (fun kv => S' (snd kv)) ds))
      by (apply G; auto).
    clear -Hps. induction L as [|v L IH]; intros ds k S HW Hs Hds; cbn [foldM].
    - apply grows_ret; auto.
    - eapply grows_bind with (Q := fun ds S' => Forall (fun kv => S' (snd kv)) ds).
      + unfold dfold.
        eapply grows_bind with (Q := fun l S => Forall (Forall S) l).
        { apply grows_lift; auto. intros l El. rewrite Hps in El.
          destruct (smem _ _ _); [|discriminate]. inversion El; subst. eapply rpaths_world; eauto. }
        intros l k1 S1 _ Hi1 HW1 Hl. eapply grows_bind; [apply path_sum_grows; eauto|].
        intros d k2 S2 _ Hi2 HW2 Hd. apply grows_ret; auto.
        assert (Hds2 : Forall (fun kv => S2 (snd kv)) ds).
        { eapply Forall_impl; [|exact Hds]. cbn; auto. }
        clear -Hds2 Hd. induction Hds2 as [|[w e] ds He Hds IH]; cbn [hinsert].
        * repeat constructor; auto.
        * destruct (ptr_eq v w); constructor; auto.
      + intros ds' k1 S1 _ Hi1 HW1 Hds1. apply IH; auto.
  Qed.
End Grow.

(** ** Values *)
Local Open Scope R_scope.

(** Value of a defined expression. *)
Definition rv (vs : valsX) (n : nodeX) : R := match evaluate vs n with Some z => z | None => 0 end.

Definition pv (vs : valsX) (n c : nodeX) : R :=
  match n with
  | NConst _ _ | NVar _ _ _ => 0
  | NAdd _ _ => 1
  | NCos _ a => - sin (rv vs a)
  | NSin _ a => cos (rv vs a)
  | NDiv _ a b => if ptr_eq a c then 1 / rv vs b else - rv vs a / (rv vs b * rv vs b)
  | NMul _ a b => if ptr_eq a c then rv vs b else rv vs a
  end.

Lemma rv_some (vs : valsX) (n : nodeX) z : evaluate vs n = Some z -> rv vs n = z.
Proof. unfold rv. intros ->; reflexivity. Qed.

Lemma partial_val vs (n c d : nodeX) k k' z :
  evaluate vs n = Some z -> In c (arguments n) -> partial n c k = Ok (d, k') ->
  evaluate vs d = Some (pv vs n c).
Proof.
  intros Hz Hc E. destruct n as [i w|i st kd|i args|i a|i a b|i a b|i a]; cbn [arguments] in Hc.
  - destruct Hc.
  - destruct Hc.
  - cbn [partial] in E. replace (existsb (fun a => ptr_eq a c) args) with true in E.
    + inversion E; subst. reflexivity.
    + symmetry. apply existsb_exists. exists c; auto.
  - destruct Hc as [<-|[]]. cbn [partial] in E. rewrite ptr_eq_refl in E.
    apply bind_ok in E as (s & k1 & E1 & E2). apply (sin_n_val vs) in E1. apply (neg_n_val vs) in E2.
    apply E2. rewrite E1. cbn [evaluate] in Hz. cbn [pv]. unfold rv.
    destruct (evaluate vs a); [|discriminate]. cbn. reflexivity.
  - cbn [evaluate] in Hz. cbn [partial pv] in *.
    destruct (evaluate vs a) as [va|] eqn:Ea; [|discriminate].
    destruct (evaluate vs b) as [vb|] eqn:Eb; [|discriminate].
    cbn in Hz. destruct (Req_EM_T vb 0) as [|Hvb]; [discriminate|].
    destruct (ptr_eq a c) eqn:Eac.
    + apply (div_sn_val vs) in E. apply E. rewrite Eb. cbn.
      destruct (Req_EM_T vb 0); [contradiction|]. rewrite (rv_some _ _ _ Eb). reflexivity.
    + assert (c = b) as ->. { destruct Hc as [<-|[<-|[]]]; auto. rewrite ptr_eq_refl in Eac; discriminate. }
      rewrite ptr_eq_refl in E.
      apply bind_ok in E as (x & k1 & E1 & E). apply bind_ok in E as (y & k2 & E2 & E).
      apply (neg_n_val vs) in E1. apply (mul_nn_val vs) in E2. apply (div_nn_val vs) in E.
      rewrite Ea in E1. rewrite Eb in E2. cbn in E1, E2.
      rewrite (E1 _ eq_refl), (E2 _ eq_refl) in E. apply E. cbn.
      destruct (Req_EM_T (vb * vb) 0) as [H0|H0].
      * exfalso. apply Rmult_integral in H0 as [|]; contradiction.
      * rewrite (rv_some _ _ _ Ea), (rv_some _ _ _ Eb). reflexivity.
  - cbn [evaluate] in Hz. cbn [partial pv] in *.
    destruct (evaluate vs a) as [va|] eqn:Ea; [|discriminate].
    destruct (evaluate vs b) as [vb|] eqn:Eb; [|discriminate].
    rewrite (rv_some _ _ _ Ea), (rv_some _ _ _ Eb).
    destruct (ptr_eq a c) eqn:Eac.
    + inversion E; subst. exact Eb.
    + assert (c = b) as ->. { destruct Hc as [<-|[<-|[]]]; auto. rewrite ptr_eq_refl in Eac; discriminate. }
      rewrite ptr_eq_refl in E. inversion E; subst. exact Ea.
  - destruct Hc as [<-|[]]. cbn [partial] in E. rewrite ptr_eq_refl in E.
    apply (cos_n_val vs) in E. rewrite E. cbn [evaluate] in Hz. cbn [pv]. unfold rv.
    destruct (evaluate vs a); [|discriminate]. reflexivity.
Qed.

(** Product along a path and sum over paths. *)
Fixpoint prodpv (vs : valsX) (ws : list (nodeX * nodeX)) : R :=
  match ws with [] => 1 | w :: ws' => pv vs (fst w) (snd w) * prodpv vs ws' end.
Fixpoint Rsum (l : list R) : R := match l with [] => 0 | x :: l' => x + Rsum l' end.

Lemma Rsum_app l l' : Rsum (l ++ l') = Rsum l + Rsum l'.
Proof. induction l as [|x l IH]; cbn; rewrite ?IH; lra. Qed.
Lemma Rsum_perm l l' : Permutation l l' -> Rsum l = Rsum l'.
Proof. induction 1; cbn; lra. Qed.
Lemma Rsum_concat ls : Rsum (concat ls) = Rsum (map Rsum ls).
Proof. induction ls as [|l ls IH]; cbn; rewrite ?Rsum_app, ?IH; lra. Qed.
Lemma Rsum_scale c l : Rsum (map (Rmult c) l) = c * Rsum l.
Proof. induction l as [|x l IH]; cbn; rewrite ?IH; lra. Qed.

Lemma path_prod_val (vs : valsX) p (n : nodeX) z k (d : nodeX) k' :
  chain p -> Forall (fun x => sub x n) p -> evaluate vs n = Some z ->
  path_prod p k = Ok (d, k') -> evaluate vs d = Some (prodpv vs (windows2 p)).
Proof.
  intros Hch Hsub Hz E. unfold path_prod in E. apply bind_ok in E as (one & k1 & E1 & E).
  inversion E1; subst one k1. clear E1.
  assert (Hdef : Forall (fun pr => exists y, evaluate vs (fst pr) = Some y) (windows2 p)).
  { apply Forall_forall. intros [a b] Hab. apply windows2_in in Hab as [Ha _].
    rewrite Forall_forall in Hsub. eapply evaluate_sub; eauto. }
  unfold chain in Hch. clear Hsub.
  enough (G : forall ws (one : nodeX) r k d k',
     Forall (fun pr : nodeX * nodeX => In (snd pr) (arguments (fst pr))) ws ->
     Forall (fun pr => exists y, evaluate vs (fst pr) = Some y) ws ->
     evaluate vs one = Some r ->
     foldM (fun prod pr => bind (partial (fst pr) (snd pr)) (fun d => mul_nn prod d)) ws one k = Ok (d, k') ->
     evaluate vs d = Some (r * prodpv vs ws)).
  { apply (G _ _ 1) in E; auto. rewrite E. f_equal; lra. }
  clear. induction ws as [|[a b] ws IH]; intros one r k d k' Hch Hdef Hr E.
  - inversion E; subst. rewrite Hr. cbn. f_equal; lra.
  - apply foldM_cons_ok in E as (s & k1 & E1 & E2).
    apply bind_ok in E1 as (pd & k2 & E1 & E3). cbn [fst snd] in *.
    inversion Hch as [|? ? Hc1 Hc2]; subst. inversion Hdef as [|? ? [y Hy] Hd2]; subst. cbn [fst snd] in *.
    apply (partial_val vs _ _ _ _ _ _ Hy) in E1; auto.
    apply (mul_nn_val vs) in E3. rewrite Hr, E1 in E3. specialize (E3 _ eq_refl).
    apply (IH _ _ _ _ _ Hc2 Hd2 E3) in E2. rewrite E2. cbn [prodpv fst snd]. f_equal; lra.
Qed.

Lemma path_sum_val (vs : valsX) ps (n : nodeX) z k (d : nodeX) k' :
  Forall (fun p => chain p /\ Forall (fun x => sub x n) p) ps -> evaluate vs n = Some z ->
  path_sum ps k = Ok (d, k') ->
  evaluate vs d = Some (Rsum (map (fun p => prodpv vs (windows2 p)) ps)).
Proof.
  intros Hps Hz E. unfold path_sum in E. apply bind_ok in E as (zero & k1 & E1 & E).
  inversion E1; subst zero k1. clear E1.
  enough (G : forall (z0 : nodeX) r k d k', evaluate vs z0 = Some r ->
     foldM (fun d path => bind (path_prod path) (fun prod => add_nn d prod)) ps z0 k = Ok (d, k') ->
     evaluate vs d = Some (r + Rsum (map (fun p => prodpv vs (windows2 p)) ps))).
  { apply (G _ 0) in E; auto. rewrite E. f_equal; lra. }
  clear E k d k'. induction Hps as [|p ps [Hch Hsub] Hps IH]; intros z0 r k d k' Hr E.
  - inversion E; subst. rewrite Hr. cbn. f_equal; lra.
  - apply foldM_cons_ok in E as (s & k1 & E1 & E2). apply bind_ok in E1 as (pd & k2 & E1 & E3).
    apply (path_prod_val vs _ n z) in E1; auto. apply (add_nn_val vs) in E3.
    rewrite Hr, E1 in E3. cbn in E3. apply (IH _ _ _ _ _ E3) in E2. rewrite E2. cbn. f_equal; lra.
Qed.

(** The chain rule sum. *)
Definition Dv (vs : valsX) (v n : nodeX) : R :=
  Rsum (map (fun p => prodpv vs (windows2 p)) (rpaths v n)).

Lemma Dv_eq vs v n :
  Dv vs v n = (if is_var n && ptr_eq n v then 1 else 0) +
              Rsum (map (fun c => pv vs n c * Dv vs v c) (arguments n)).
Proof.
  unfold Dv at 1. rewrite rpaths_eq, map_app, Rsum_app. f_equal.
  - destruct (_ && _); cbn; lra.
  - rewrite concat_map, Rsum_concat, !map_map.
    rewrite (Rsum_perm _ (map (fun c => Rsum (map (fun p => prodpv vs (windows2 p)) (map (cons n) (rpaths v c)))) (arguments n))).
    2:{ apply Permutation_map, Permutation_sym, Permutation_rev. }
    f_equal. apply map_ext. intros c. unfold Dv. rewrite <- Rsum_scale, !map_map.
    f_equal. apply map_ext_in. intros p Hp. destruct (rpaths_head _ _ _ Hp) as [q ->]. reflexivity.
Qed.

Theorem path_sum_Dv (vs : valsX) (v n : nodeX) z k (d : nodeX) k' :
  evaluate vs n = Some z -> path_sum (rpaths v n) k = Ok (d, k') ->
  evaluate vs d = Some (Dv vs v n).
Proof.
  intros Hz E. eapply path_sum_val; eauto. apply Forall_forall. intros p Hp.
  apply rpaths_chain in Hp; auto.
Qed.
