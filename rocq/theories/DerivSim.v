(** Two runs of differentiation over two number types, with sizes and degrees. *)
From Verif Require Import Base Num Node NodeDiff NodeInd ExprSpec Api ApiProofs PathProofs DerivProofs ExactSim DegProofs.
From Coq Require Import NArith.
Local Open Scope N_scope.

Definition factor_step {T} `{Num T} (prod : node T) (pr : node T * node T) : M (node T) :=
  bind (partial (fst pr) (snd pr)) (fun d => mul_nn prod d).

Section DerivSim.
  Context {T1 T2 : Type} `{N1 : Num T1} `{N2 : Num T2}.
  Variables (lim vw : N).
  Variable rel : N -> T1 -> T2 -> Prop.
  Hypothesis vw1 : 1 <= vw.
  Hypothesis rel_lim : forall w x y, rel w x y -> w <= lim.
  Hypothesis rel_mono : forall w w' x y, rel w x y -> w <= w' -> w' <= lim -> rel w' x y.
  Hypothesis rel_lit : forall z w, Z.abs_N z <= w -> w <= lim -> rel w (nlit z) (nlit z).
  Hypothesis rel_add : forall w w' x y x' y', rel w x y -> rel w' x' y' -> w + w' <= lim -> rel (w + w') (nadd x x') (nadd y y').
  Hypothesis rel_mul : forall w w' x y x' y', rel w x y -> rel w' x' y' -> w * w' <= lim -> rel (w * w') (nmul x x') (nmul y y').
  Hypothesis rel_eqb : forall w w' x y x' y', rel w x y -> rel w' x' y' -> neqb x x' = neqb y y'.
  Hypothesis rel_zero : forall x y, rel 0 x y -> neqb x n0 = true.
  Notation RNode := (RNode lim vw rel).
  Notation RNodes := (RNodes lim vw rel).

  (** Paths that start at [n] and [n'], whose product of partials has size [s] and degree [g]. *)
  Record path_rel (n : node T1) (n' : node T2) (g : nat) (s : N) (p : list (node T1)) (p' : list (node T2)) : Prop := {
    pr_head : exists q q', p = n :: q /\ p' = n' :: q';
    pr_pos : 1 <= s;
    pr_sim : forall c x x', RNode c x x' -> c * s <= lim -> simM2 (RNode (c * s)) (foldM factor_step (windows2 p) x) (foldM factor_step (windows2 p') x');
    pr_deg : forall c (x : node T1) k y k', (degree x <= c)%nat -> foldM factor_step (windows2 p) x k = Ok (y, k') -> (degree y <= c + g)%nat
  }.
  Inductive path_rels (n : node T1) (n' : node T2) (g : nat) : N -> list (list (node T1)) -> list (list (node T2)) -> Prop :=
  | prs_nil : path_rels n n' g 0 [] []
  | prs_cons s t p p' l l' : path_rel n n' g s p p' -> path_rels n n' g t l l' -> path_rels n n' g (s + t) (p :: l) (p' :: l').
  Lemma prs_app n n' g s t l l' m m' : path_rels n n' g s l l' -> path_rels n n' g t m m' -> path_rels n n' g (s + t) (l ++ m) (l' ++ m').
  Proof. intros Hl Hm. induction Hl; cbn [app]; [exact Hm|]. rewrite <- N.add_assoc. constructor; auto. Qed.
  Lemma path_rel_mono n n' g g' s p p' : path_rel n n' g s p p' -> (g <= g')%nat -> path_rel n n' g' s p p'.
  Proof. intros [H1 H2 H3 H4] Hg. split; auto. intros. specialize (H4 c x k y k' H H0). lia. Qed.
  Lemma path_rels_mono n n' g g' s p p' : path_rels n n' g s p p' -> (g <= g')%nat -> path_rels n n' g' s p p'.
  Proof. intros Hp Hg. induction Hp; constructor; auto. eapply path_rel_mono; eauto. Qed.

  (** One more node in front. *)
  Lemma path_step m m' n n' g s p p' q h : path_rel n n' g s p p' -> 1 <= q ->
    simM2 (RNode q) (partial m n) (partial m' n') -> (forall k d k', partial m n k = Ok (d, k') -> (degree d <= h)%nat) ->
    path_rel m m' (h + g) (q * s) (m :: p) (m' :: p').
  Proof.
    intros [(r & r' & -> & ->) Hs Hsim Hdeg] Hq Hp Hd. split; [eauto|nia| |].
    - intros c x x' Hx Hl. change (windows2 (m :: n :: r)) with ((m, n) :: windows2 (n :: r)). change (windows2 (m' :: n' :: r')) with ((m', n') :: windows2 (n' :: r')).
      cbn [foldM]. rewrite N.mul_assoc in Hl |- *.
      apply (simM2_bind (RNode (c * q))); [|intros; apply Hsim; [assumption|exact Hl]].
      unfold factor_step. cbn [fst snd]. eapply simM2_bind; [exact Hp|]. intros d d' Hdd. eapply sim_mul_nn; eauto. nia.
    - intros c x k y k' Hx E. change (windows2 (m :: n :: r)) with ((m, n) :: windows2 (n :: r)) in E. cbn [foldM] in E.
      apply bind_ok in E as (z & k1 & E1 & E). unfold factor_step in E1. cbn [fst snd] in E1. apply bind_ok in E1 as (d & k2 & E2 & E1).
      rewrite Nat.add_assoc. eapply Hdeg; [|exact E]. eapply mul_nn_deg; [|exact E1]. specialize (Hd _ _ _ E2). lia.
  Qed.
  Lemma paths_step m m' n n' g s l l' q h : path_rels n n' g s l l' -> 1 <= q ->
    simM2 (RNode q) (partial m n) (partial m' n') -> (forall k d k', partial m n k = Ok (d, k') -> (degree d <= h)%nat) ->
    path_rels m m' (h + g) (q * s) (map (cons m) l) (map (cons m') l').
  Proof.
    intros Hl Hq Hp Hd. induction Hl as [|s t p p' l l' Hp' Hl IH]; cbn [map]; [rewrite N.mul_0_r; constructor|].
    rewrite N.mul_add_distr_l. constructor; [|exact IH]. eapply path_step; eauto.
  Qed.

  Definition no_alias {T} (n : node T) : Prop := forall a b, sub a n -> sub b n -> ptr_eq a b = true -> a = b.
  Lemma no_alias_sub {T} (a n : node T) : no_alias n -> In a (arguments n) -> no_alias a.
  Proof. intros Hn Ha x y Hx Hy. apply Hn; eapply sub_arg; eauto. Qed.

  Lemma part_add i l l' a a' w : RNodes w l l' -> same_cell a a' -> 1 <= lim ->
    simM2 (RNode 1) (partial (NAdd i l) a) (partial (NAdd i l') a').
  Proof.
    intros Hl Ha H1. cbn [partial].
    assert (Eq : existsb (fun x => ptr_eq x a) l = existsb (fun x => ptr_eq x a') l').
    { pose proof (RNodes_forall lim vw rel vw1 _ _ _ Hl) as HF. clear -HF Ha. induction HF as [|x x' l l' (w' & _ & Hx) HF IH]; cbn; [reflexivity|].
      rewrite IH. f_equal. apply same_cell_ptr; [|exact Ha]. eapply RNode_cell; eauto. }
    rewrite Eq. destruct (existsb _ l'); apply sim_const; try lia; apply rel_lit; lia.
  Qed.

  Variables (v : node T1) (v' : node T2).
  Hypothesis Hv : same_cell v v'.

  Lemma prs_zero n n' g s l l' : path_rels n n' g s l l' -> s = 0 -> l = [] /\ l' = [].
  Proof. destruct 1 as [|s t p p' l l' [_ Hp _ _] _]; intros E; [auto|lia]. Qed.
  Lemma mul_degree {T} i (a b : node T) : degree (NMul i a b) = (degree a + degree b)%nat.
  Proof. reflexivity. Qed.

  Theorem rpaths_sim w n n' : RNode w n n' -> no_alias n -> no_alias n' ->
    exists s, path_rels n n' (degree n - 1) s (rpaths v n) (rpaths v' n') /\ vw * s <= w * N.of_nat (degree n).
  Proof.
    revert w n n'.
    pose proof (RNode_both_ind lim vw rel (fun w n n' => no_alias n -> no_alias n' ->
        exists s, path_rels n n' (degree n - 1) s (rpaths v n) (rpaths v' n') /\ vw * s <= w * N.of_nat (degree n))
      (fun w l l' => forall i L L' W g, RNodes W L L' -> 1 <= lim -> (forall a, In a l -> no_alias a) -> (forall a, In a l' -> no_alias a) ->
         Forall (fun a => degree a <= g)%nat l ->
         exists s, path_rels (NAdd i L) (NAdd i L') (g - 1) s (concat (map (fun c => map (cons (NAdd i L)) (rpaths v c)) (rev l)))
                                                     (concat (map (fun c => map (cons (NAdd i L')) (rpaths v' c)) (rev l'))) /\ vw * s <= w * N.of_nat g)) as B.
    cbv beta in B. apply B; clear B.
    - intros w i x x' Hw Hx _ _. exists 0. split; [constructor|lia].
    - intros w i st kd Hw Hl _ _. cbn [rpaths is_var andb]. rewrite !app_nil_r.
      rewrite (same_cell_ptr (NVar i st kd) v (NVar i st kd : node T2) v') by (cbn; auto).
      destruct (ptr_eq (NVar i st kd) v').
      + exists (1 + 0). split; [|cbn [degree]; lia]. constructor; [|constructor]. split; [eauto|lia| |].
        * intros c x x' Hx Hc. cbn [windows2 foldM]. rewrite N.mul_1_r. apply simM2_ret. exact Hx.
        * intros c x k y k' Hx E. injection E as <- _. lia.
      + exists 0. split; [constructor|lia].
    - intros w i l l' Hw Hl IH Hn Hn'. rewrite !rpaths_eq. cbn [is_var andb app arguments].
      pose proof (RNodes_lim lim vw rel _ _ _ Hl) as Hlim.
      apply (IH i l l' w (degree (NAdd i l)) Hl); [lia| | |].
      + intros a Ha. eapply no_alias_sub; eauto.
      + intros a Ha. eapply no_alias_sub; eauto.
      + apply (degree_add i). apply Nat.le_refl.
    - intros w w1 w2 i a a' b b' Ha IHa Hb IHb Hw Hl Hn Hn'.
      destruct IHa as (sa & Pa & Ba); [eapply no_alias_sub; [eassumption|left; reflexivity]..|].
      destruct IHb as (sb & Pb & Bb); [eapply no_alias_sub; [eassumption|right; left; reflexivity]..|].
      rewrite !rpaths_eq. cbn [is_var andb app arguments rev map concat]. rewrite !app_nil_r.
      pose proof (RNode_pos lim vw rel vw1 _ _ _ Ha) as H1. pose proof (RNode_pos lim vw rel vw1 _ _ _ Hb) as H2.
      assert (Qb : simM2 (RNode w1) (partial (NMul i a b) b) (partial (NMul i a' b') b')).
      { cbn [partial]. rewrite <- (same_cell_ptr a b a' b') by (eapply RNode_cell; eassumption).
        rewrite <- (same_cell_ptr b b b' b') by (eapply RNode_cell; eassumption).
        destruct (ptr_eq a b) eqn:Eab.
        - pose proof Eab as Eab'. rewrite (same_cell_ptr a b a' b') in Eab' by (eapply RNode_cell; eassumption).
          apply Hn in Eab; [|eapply sub_arg; [left; reflexivity|apply sub_refl]|eapply sub_arg; [right; left; reflexivity|apply sub_refl]].
          apply Hn' in Eab'; [|eapply sub_arg; [left; reflexivity|apply sub_refl]|eapply sub_arg; [right; left; reflexivity|apply sub_refl]].
          subst b b'. apply simM2_ret. exact Ha.
        - rewrite ptr_eq_refl. apply simM2_ret. exact Ha. }
      assert (Qa : simM2 (RNode w2) (partial (NMul i a b) a) (partial (NMul i a' b') a')).
      { cbn [partial]. rewrite !ptr_eq_refl. apply simM2_ret. exact Hb. }
      assert (Db : forall k d k', partial (NMul i a b) b k = Ok (d, k') -> (degree d <= degree a)%nat).
      { intros k d k' E. cbn [partial] in E. destruct (ptr_eq a b) eqn:Eab.
        - apply Hn in Eab; [|eapply sub_arg; [left; reflexivity|apply sub_refl]|eapply sub_arg; [right; left; reflexivity|apply sub_refl]].
          subst b. injection E as <- _. lia.
        - rewrite ptr_eq_refl in E. injection E as <- _. lia. }
      assert (Da : forall k d k', partial (NMul i a b) a k = Ok (d, k') -> (degree d <= degree b)%nat).
      { intros k d k' E. cbn [partial] in E. rewrite ptr_eq_refl in E. injection E as <- _. lia. }
      exists (w1 * sb + w2 * sa). split.
      + apply prs_app.
        * destruct (Nat.eq_dec (degree b) 0) as [E0|E0].
          -- assert (sb = 0) by (rewrite E0 in Bb; nia). destruct (prs_zero _ _ _ _ _ _ Pb H) as [-> ->]. subst sb. rewrite N.mul_0_r. constructor.
          -- eapply path_rels_mono; [eapply paths_step; eassumption|]. rewrite mul_degree. lia.
        * destruct (Nat.eq_dec (degree a) 0) as [E0|E0].
          -- assert (sa = 0) by (rewrite E0 in Ba; nia). destruct (prs_zero _ _ _ _ _ _ Pa H) as [-> ->]. subst sa. rewrite N.mul_0_r. constructor.
          -- eapply path_rels_mono; [eapply paths_step; eassumption|]. rewrite mul_degree. lia.
      + rewrite mul_degree, Nat2N.inj_add.
        transitivity (w1 * w2 * (N.of_nat (degree a) + N.of_nat (degree b))); [|apply N.mul_le_mono_r; exact Hw].
        transitivity (w1 * (vw * sb) + w2 * (vw * sa)); [apply N.eq_le_incl; ring|].
        transitivity (w1 * (w2 * N.of_nat (degree b)) + w2 * (w1 * N.of_nat (degree a))); [|apply N.eq_le_incl; ring].
        apply N.add_le_mono; apply N.mul_le_mono_l; assumption.
    - intros w Hw i L L' W g HL H1 _ _ _. exists 0. split; [constructor|lia].
    - intros w w1 w2 a a' l l' Ha IHa Hl IHl Hw Hlim i L L' W g HL H1 Hn Hn' Hd.
      destruct IHa as (sa & Pa & Ba); [apply Hn; left; reflexivity|apply Hn'; left; reflexivity|].
      inversion Hd as [|? ? Hda Hdl]; subst.
      destruct (IHl i L L' W g HL H1) as (sl & Pl & Bl); [intros; apply Hn; right; assumption|intros; apply Hn'; right; assumption|exact Hdl|].
      cbn [rev]. rewrite !map_app, !concat_app. cbn [map concat]. rewrite !app_nil_r.
      exists (sl + 1 * sa). split.
      + apply prs_app; [exact Pl|]. eapply path_rels_mono; [eapply (paths_step _ _ _ _ _ _ _ _ 1 0%nat); [exact Pa|lia| |]|lia].
        * eapply part_add; [exact HL|eapply RNode_cell; exact Ha|exact H1].
        * intros k d k' E. cbn [partial] in E. destruct (existsb _ L); apply mk_const_deg in E; lia.
      + assert (w1 * N.of_nat (degree a) <= w1 * N.of_nat g) by (apply N.mul_le_mono_l; lia).
        transitivity ((w1 + w2) * N.of_nat g); [lia|apply N.mul_le_mono_r; exact Hw].
  Qed.

  (** *** Derivatives *)
  Lemma path_sum_ext {T} `{Num T} ps : path_sum (T := T) ps = bind (mk_const n0) (fun zero => foldM (fun d p => bind (bind (mk_const n1) (fun one => foldM factor_step (windows2 p) one)) (fun prod => add_nn d prod)) ps zero).
  Proof. reflexivity. Qed.
  Lemma path_fold_sim n n' g s l l' : path_rels n n' g s l l' -> forall c x x', RNode c x x' -> c + s <= lim ->
    simM2 (RNode (c + s)) (foldM (fun d p => bind (bind (mk_const n1) (fun one => foldM factor_step (windows2 p) one)) (fun prod => add_nn d prod)) l x)
                          (foldM (fun d p => bind (bind (mk_const n1) (fun one => foldM factor_step (windows2 p) one)) (fun prod => add_nn d prod)) l' x').
  Proof.
    induction 1 as [|s t p p' l l' [_ Hp Hs _] Hl IH]; intros c x x' Hx Hc; cbn [foldM].
    - rewrite N.add_0_r. apply simM2_ret. exact Hx.
    - rewrite N.add_assoc in Hc |- *. apply (simM2_bind (RNode (c + s))); [|intros; apply IH; assumption].
      pose proof (RNode_pos lim vw rel vw1 _ _ _ Hx).
      apply (simM2_bind (RNode s)); [|intros y y' Hy; eapply sim_add_nn; eauto; lia].
      apply (simM2_bind (RNode 1)); [apply sim_const; [lia|apply rel_lit; cbn; lia]|].
      intros y y' Hy. replace s with (1 * s) by lia. apply Hs; [exact Hy|lia].
  Qed.
  Lemma path_fold_deg n n' g s l l' : path_rels n n' g s l l' -> forall (x : node T1) k y k', (degree x <= g)%nat ->
    foldM (fun d p => bind (bind (mk_const n1) (fun one => foldM factor_step (windows2 p) one)) (fun prod => add_nn d prod)) l x k = Ok (y, k') -> (degree y <= g)%nat.
  Proof.
    induction 1 as [|s t p p' l l' [_ Hp _ Hd] Hl IH]; intros x k y k' Hx E; cbn [foldM] in E.
    - injection E as <- _. exact Hx.
    - apply bind_ok in E as (z & k1 & E1 & E). eapply IH; [|exact E]. apply bind_ok in E1 as (pr & k2 & E1 & E2).
      apply bind_ok in E1 as (one & k3 & E1 & E3). apply mk_const_deg in E1. eapply add_nn_deg; [exact Hx| |exact E2].
      apply (Hd 0%nat one _ _ _) in E3; lia.
  Qed.
  Theorem deriv_sim w n n' : RNode w n n' -> no_alias n -> no_alias n' -> 1 + w * N.of_nat (degree n) <= lim ->
    simM2 (RNode (1 + w * N.of_nat (degree n))) (path_sum (rpaths v n)) (path_sum (rpaths v' n')) /\
    forall k d k', path_sum (rpaths v n) k = Ok (d, k') -> (degree d <= degree n - 1)%nat.
  Proof.
    intros Hr Hn Hn' Hl. destruct (rpaths_sim w n n' Hr Hn Hn') as (s & Hs & Hb). assert (Hsw : s <= w * N.of_nat (degree n)) by nia. split.
    - rewrite !path_sum_ext. apply (simM2_bind (RNode 1)); [apply sim_const; [lia|apply rel_lit; cbn; lia]|]. intros x x' Hx.
      eapply simM2_mono; [|eapply path_fold_sim; [exact Hs|exact Hx|lia]]. intros y y' Hy. eapply RNode_mono; [..|exact Hy| |]; eauto; lia.
    - intros k d k' E. rewrite path_sum_ext in E. apply bind_ok in E as (z & k1 & E1 & E). apply mk_const_deg in E1. eapply path_fold_deg; [exact Hs| |exact E]. lia.
  Qed.
End DerivSim.
