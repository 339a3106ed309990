(** A constraint and its standard components hold together. *)
From Verif Require Import Base Num Node NodeDiff NodeInd NodeStd Constraint ExprSpec ConstrSpec World Fresh
     EvalProofs MapProofs StdPropProofs DerivProofs DiffProofs GradProofs PanicProofs CompProofs OccProofs ConstrProofs.
From Coq Require Import Reals Lra.
Local Open Scope R_scope.

Lemma xsum_perm l l' : Permutation l l' -> xsum l = xsum l'.
Proof.
  induction 1 as [|x l l' HP IH|x y l|l l' l'' H1 IH1 H2 IH2]; auto.
  - rewrite !xsum_cons, IH; auto.
  - rewrite !xsum_cons, <- !xplus_assoc, (xplus_comm y x); auto.
  - congruence.
Qed.
Lemma lin_perm vs a a' : Permutation a a' -> lin vs a = lin vs a'.
Proof. intros HP. apply xsum_perm, Permutation_map; auto. Qed.
Lemma lin_ext vs vs' a : (forall kv, In kv a -> evaluate vs (fst kv) = evaluate vs' (fst kv)) -> lin vs a = lin vs' a.
Proof.
  intros E. unfold lin. f_equal. apply map_ext_in. intros kv Hkv. rewrite E; auto.
Qed.

Lemma lrow_all {T} r (l : list (node T * T)) : lrow r (map (fun kv => (r, fst kv, snd kv)) l) = l.
Proof.
  unfold lrow. induction l as [|[v c] l IH]; cbn; auto. rewrite Nat.eqb_refl. cbn. f_equal; auto.
Qed.
Lemma lrow_app {T} r (l l' : list (nat * node T * T)) : lrow r (l ++ l') = lrow r l ++ lrow r l'.
Proof. unfold lrow. rewrite filter_app, map_app; auto. Qed.

(** Fresh variables do not matter. *)
Lemma same_before_eval nsq k S (vs vs' : valsX) (n : nodeX) :
  world nsq k S -> S n -> same_before k vs vs' -> evaluate vs n = evaluate vs' n.
Proof.
  intros HW Sn Hs. apply evaluate_ext. intros v [Hv Hsub]. apply Hs; auto.
  eapply w_lt; [exact HW|]. eapply world_sub; eauto.
Qed.
Lemma same_before_holds nsq k S (vs vs' : valsX) (c : constraint X) :
  world nsq k S -> S (clhs c) -> S (crhs c) -> same_before k vs vs' -> holds vs c -> holds vs' c.
Proof.
  intros HW Sl Sr Hs (a & b & Ea & Eb & R). exists a, b.
  rewrite <- (same_before_eval nsq k S vs vs' _ HW Sl Hs), <- (same_before_eval nsq k S vs vs' _ HW Sr Hs). auto.
Qed.
Lemma same_before_refl {T} `{Num T} k (vs : vals T) : same_before k vs vs.
Proof. intros v _ _; auto. Qed.
Lemma same_before_sym {T} `{Num T} k (vs vs' : vals T) : same_before k vs vs' -> same_before k vs' vs.
Proof. intros Hs v H1 H2. symmetry; auto. Qed.
Lemma same_before_trans {T} `{Num T} k k' (vs vs' vs'' : vals T) :
  (k <= k')%nat -> same_before k vs vs' -> same_before k' vs' vs'' -> same_before k vs vs''.
Proof. intros Hk H1 H2 v Hv Hn. rewrite H1 by auto. apply H2; auto. lia. Qed.
Lemma same_before_new k (vs : valsX) s x :
  is_var s = true -> (k <= nid s)%nat -> same_before k vs (hinsert ptr_eq s x vs).
Proof.
  intros Hs Hk v Hv Hn. destruct v; try discriminate. cbn [evaluate].
  rewrite hget_hinsert_other; [reflexivity|exact ptr_eq_sym|exact ptr_eq_trans|].
  apply not_true_is_false. intros E. apply ptr_eq_nid in E. cbn in *. lia.
Qed.
Lemma new_value (vs : valsX) s x : is_var s = true -> evaluate (hinsert ptr_eq s x vs) s = x.
Proof.
  intros Hs. destruct s; try discriminate. cbn [evaluate].
  rewrite hget_hinsert_same; [reflexivity|exact ptr_eq_sym|exact ptr_eq_trans|apply ptr_eq_refl].
Qed.

Ltac cbnc := cbn [cs_ca cs_cj cs_a cs_b cs_f cs_j cs_h cs_u cs_l cs_prop].
Ltac cbnc_in A B C D := cbn [cs_ca cs_cj cs_a cs_b cs_f cs_j cs_h cs_u cs_l cs_prop] in A, B, C, D.

Section Equiv.
  Context `{HashOrd}.

  (** In exact arithmetic the difference is [lhs - rhs] at every valuation. *)
  Lemma holds_diff vs (c : constraint X) e k k1 :
    sub_nn (clhs c) (crhs c) k = Ok (e, k1) ->
    holds vs c <-> exists z, evaluate vs e = Some z /\ rel (ckd c) z 0.
  Proof.
    intros E. rewrite (sub_nn_exact vs _ _ _ _ _ E). unfold holds. split.
    - intros (a & b & -> & -> & R). exists (a - b). split; auto. destruct (ckd c); cbn in *; lra.
    - intros (z & Ez & R). destruct (evaluate vs (clhs c)) as [a|], (evaluate vs (crhs c)) as [b|]; try discriminate.
      inversion Ez; subst. exists a, b. repeat split; auto. destruct (ckd c); cbn in *; lra.
  Qed.

  Lemma x1_opp a z : x1 Ropp a = Some z <-> a = Some (- z).
  Proof. destruct a as [x|]; cbn; split; intros E; inversion E; f_equal; lra. Qed.

  (** Forward: a point satisfying the constraint extends to the slack. *)
  Theorem constr_std_complete nsq k S vs (c : constraint X) arow jrow cs ar' jr' k' :
    world nsq k S -> S (clhs c) -> S (crhs c) ->
    constr_std c arow jrow k = Ok ((cs, ar', jr'), k') -> holds vs c ->
    exists vs', same_before k vs vs' /\ std_holds arow vs' cs /\
      forall v, In v (prop_keys cs) -> (k <= nid v)%nat ->
        evaluate vs' v = x2 Rminus (evaluate vs (clhs c)) (evaluate vs (crhs c)).
  Proof.
    intros HW Sl Sr E Hh. apply constr_std_inv in E as (e & k1 & sc & k2 & E1 & E2 & E).
    pose proof (sub_nn_exact vs _ _ _ _ _ E1) as Ee.
    assert (Hold : forall v, In v (map fst (p_a (std_properties e))) -> (nid v < k)%nat).
    { intros v Hv. apply keys_occur in Hv. apply (sub_nn_occurs_l v _ _ _ _ _ E1) in Hv.
      destruct Hv as [[_ Hv]|[_ Hv]]; apply (w_lt _ _ _ HW);
        [exact (world_sub nsq k S _ _ HW Sl Hv)|exact (world_sub nsq k S _ _ HW Sr Hv)]. }
    apply (holds_diff vs c e k k1 E1) in Hh as (z & Hz & R).
    destruct (sub_nn_grows nsq k S _ _ HW Sl Sr _ _ E1) as (K1 & S1 & I1 & W1 & Se).
    destruct (std_components_grows nsq k1 S1 _ W1 Se _ _ E2) as (K2 & S2 & I2 & W2 & _ & _ & _).
    assert (Hlin : p_affine (std_properties e) = true ->
                   exists zl zb, lin vs (p_a (std_properties e)) = Some zl /\
                                 p_b (std_properties e) = Some zb /\ zl + zb = z).
    { intros Ha. pose proof (affine_value nsq k1 S1 vs e W1 Se Ha) as Hv. rewrite Hz in Hv.
      destruct (lin vs (p_a (std_properties e))) as [zl|]; [|discriminate].
      destruct (p_b (std_properties e)) as [zb|]; [|discriminate]. inversion Hv. eauto 8. }
    rewrite <- Ee, Hz.
    destruct E as [x v Ha Hp Hv Hne|Ha He|s Ha Hne Hb Hs|Ha He|s f k3 m1 Ha Hne Hs Ef Hm1].
    - exists vs. split; [apply same_before_refl|].
      destruct (Hlin Ha) as (zl & zb & El & Eb & Esum).
      split; [|intros y Hy Hk; unfold prop_keys in Hy; cbn in Hy; rewrite app_nil_r in Hy;
               specialize (Hold y Hy); lia].
      rewrite Hp in El. apply xeqb_one in Hv as ->.
      assert (Ex : evaluate vs x = Some zl).
      { rewrite lin_cons in El. cbn [fst snd] in El. rewrite xmult_1_l in El.
        unfold lin in El; cbn in El. unfold xsum in El; cbn in El. rewrite xplus_0_r in El. exact El. }
      unfold std_holds; cbnc. rewrite Eb. cbn. split; [intros [|i] b' Hb; discriminate|]. split; auto.
      destruct (ckd c); cbn; [congruence| |]; (split; constructor; auto).
      + cbn. exists zl, (- zb). repeat split; auto. cbn in R. lra.
      + cbn. exists (- zb), zl. repeat split; auto. cbn in R. lra.
    - exists vs. split; [apply same_before_refl|].
      destruct (Hlin Ha) as (zl & zb & El & Eb & Esum).
      split; [|intros y Hy Hk; unfold prop_keys in Hy; cbn in Hy; rewrite app_nil_r in Hy;
               specialize (Hold y Hy); lia].
      unfold std_holds; cbnc. split; auto. intros [|[|i]] b' Hb; inversion Hb; subst.
      rewrite Nat.add_0_r, lrow_all, (lin_perm vs _ _ (ord_perm _ 4 k2 _)), El, Eb. cbn.
      exists zl. split; auto. f_equal. rewrite He in R. cbn in R. lra.
    - exists (hinsert ptr_eq s (Some z) vs). destruct (Hlin Ha) as (zl & zb & El & Eb & Esum).
      assert (Hv : is_var s = true) by (rewrite Hs; auto).
      assert (Hks : (k <= nid s)%nat) by (rewrite Hs; cbn; lia).
      assert (Hsame : same_before k vs (hinsert ptr_eq s (Some z) vs)) by (apply same_before_new; auto).
      split; auto.
      assert (Hfr : existsb (ptr_eq s) (map fst (p_a (std_properties e))) = false).
      { apply (fresh_keys nsq k2 S2); auto; rewrite Hs; cbn; auto. }
      assert (Hkv : Forall (fun v => is_var v = true) (map fst (p_a (std_properties e)))).
      { eapply Forall_impl; [|apply (world_keys nsq k2 S2 e W2); auto]. intros ? [? ?]; auto. }
      rewrite Forall_forall in Hkv. clear Hs. split.
      + unfold std_holds; cbnc. split; [|split; [constructor|]].
        * intros [|[|i]] b' Hb'; inversion Hb'; subst.
          rewrite Nat.add_0_r, lrow_app, lrow_all, lin_app, (lin_perm _ _ _ (ord_perm _ 4 k2 _)).
          rewrite <- (lin_ext vs).
          2:{ intros kv Hkv'. apply Hsame; [apply Hkv|apply Hold]; apply in_map; auto. }
          rewrite El, Eb. unfold lrow. cbn. rewrite Nat.eqb_refl. cbn. unfold lin, xsum. cbn.
          rewrite new_value by auto. cbn. eexists. split; [reflexivity|]. f_equal. lra.
        * destruct (ckd c); cbn; [congruence| |]; (split; constructor; auto); cbn; rewrite new_value by auto.
          -- exists z, 0. repeat split; auto.
          -- exists 0, z. repeat split; auto. cbn in R; lra.
      + intros y Hy Hk. unfold prop_keys in Hy; cbn in Hy.
        rewrite app_nil_r, keys_hinsert, Hfr in Hy. apply in_app_or in Hy as [Hy|[<-|[]]].
        * specialize (Hold y Hy); lia.
        * apply new_value; auto.
    - exists vs. split; [apply same_before_refl|].
      split; [|intros y Hy Hk; unfold prop_keys in Hy; cbn in Hy; rewrite app_nil_r in Hy;
               specialize (Hold y Hy); lia].
      unfold std_holds; cbnc. split; [intros [|i] b' Hb; discriminate|]. split; auto.
      constructor; auto. rewrite Hz. rewrite He in R. cbn in R. subst; auto.
    - exists (hinsert ptr_eq s (Some z) vs).
      assert (Hv : is_var s = true) by (rewrite Hs; auto).
      assert (Hks : (k <= nid s)%nat) by (rewrite Hs; cbn; lia).
      assert (Hks2 : (k1 <= nid s)%nat) by (rewrite Hs; cbn; lia).
      assert (Hsame : same_before k vs (hinsert ptr_eq s (Some z) vs)) by (apply same_before_new; auto).
      split; auto.
      assert (Hfr : existsb (ptr_eq s) (map fst (p_a (std_properties e))) = false).
      { apply (fresh_keys nsq k2 S2); auto; rewrite Hs; cbn; auto. }
      clear Hs. split.
      + unfold std_holds; cbnc. split; [intros [|i] b' Hb; discriminate|]. split.
        * constructor; auto. rewrite (sub_nn_exact _ _ _ _ _ _ Ef), new_value by auto.
          rewrite <- (same_before_eval nsq k1 S1 vs _ e W1 Se); [|apply same_before_new; auto].
          rewrite Hz. cbn. f_equal; lra.
        * destruct (ckd c); cbn; [congruence| |]; (split; constructor; auto); cbn; rewrite new_value by auto.
          -- exists z, 0. repeat split; auto.
          -- exists 0, z. repeat split; auto. cbn in R; lra.
      + intros y Hy Hk. unfold prop_keys in Hy; cbn in Hy.
        rewrite app_nil_r, keys_hinsert, Hfr in Hy. apply in_app_or in Hy as [Hy|[<-|[]]].
        * specialize (Hold y Hy); lia.
        * apply new_value; auto.
  Qed.

  (** Backward: a point satisfying the components satisfies the constraint. *)
  Theorem constr_std_sound nsq k S vs (c : constraint X) arow jrow cs ar' jr' k' :
    world nsq k S -> S (clhs c) -> S (crhs c) ->
    constr_std c arow jrow k = Ok ((cs, ar', jr'), k') -> std_holds arow vs cs -> holds vs c.
  Proof.
    intros HW Sl Sr E Hst. apply constr_std_inv in E as (e & k1 & sc & k2 & E1 & E2 & E).
    apply (holds_diff vs c e k k1 E1).
    destruct (sub_nn_grows nsq k S _ _ HW Sl Sr _ _ E1) as (K1 & S1 & I1 & W1 & Se).
    pose proof (affine_value nsq k1 S1 vs e W1 Se) as Hlin.
    destruct Hst as (Hrow & Hf & Hu & Hl).
    destruct E as [x v Ha Hp Hv Hne|Ha He|s Ha Hne Hb Hs|Ha He|s f k3 m1 Ha Hne Hs Ef Hm1]; cbnc_in Hrow Hf Hu Hl.
    - rewrite (Hlin Ha), Hp. apply xeqb_one in Hv as ->. rewrite lin_cons. cbn [fst snd].
      rewrite xmult_1_l. unfold lin, xsum; cbn. rewrite xplus_0_r.
      destruct (ckd c); cbn in *; [congruence| |].
      + inversion Hu as [|? ? (r & t & Er & Et & Hrt) _]; subst; cbn in *. apply x1_opp in Et. rewrite Er, Et. cbn.
        eexists; split; [reflexivity|]. lra.
      + inversion Hl as [|? ? (r & t & Er & Et & Hrt) _]; subst; cbn in *. apply x1_opp in Er. rewrite Et, Er. cbn.
        eexists; split; [reflexivity|]. lra.
    - rewrite (Hlin Ha), He. destruct (Hrow 0%nat _ eq_refl) as (r & Er & Et).
      rewrite Nat.add_0_r, lrow_all, (lin_perm vs _ _ (ord_perm _ 4 k2 _)) in Er.
      apply x1_opp in Et. rewrite Er, Et. cbn. eexists; split; [reflexivity|]. cbn. lra.
    - rewrite (Hlin Ha). destruct (Hrow 0%nat _ eq_refl) as (r & Er & Et).
      rewrite Nat.add_0_r, lrow_app, lrow_all, lin_app, (lin_perm vs _ _ (ord_perm _ 4 k2 _)) in Er.
      change [(arow, s, nm1 : X)] with (map (fun kv : nodeX * X => (arow, fst kv, snd kv)) [(s, nm1 : X)]) in Er.
      rewrite lrow_all, lin_cons in Er. cbn [fst snd] in Er. clear Hs.
      apply x1_opp in Et. rewrite Et.
      destruct (lin vs (p_a (std_properties e))) as [zl|]; [|discriminate].
      destruct (evaluate vs s) as [zs|] eqn:Es; [|discriminate].
      unfold lin, xsum in Er; cbn in Er. inversion Er.
      eexists; split; [reflexivity|].
      destruct (ckd c); cbn in *; [congruence| |].
      + inversion Hu as [|? ? (q & t & Eq & Et' & Hrt) _]; subst; cbn in *. rewrite Es in Eq.
        inversion Eq; inversion Et'; subst. lra.
      + inversion Hl as [|? ? (q & t & Eq & Et' & Hrt) _]; subst; cbn in *. rewrite Es in Et'.
        inversion Eq; inversion Et'; subst. lra.
    - inversion Hf; subst. eexists; split; [eassumption|]. rewrite He. reflexivity.
    - inversion Hf as [|? ? Hf0 _]; subst. rewrite (sub_nn_exact _ _ _ _ _ _ Ef) in Hf0.
      destruct (evaluate vs e) as [z|]; [|discriminate].
      destruct (evaluate vs (NVar k2 (slack_name "_s_j" jrow) VarContinuous)) as [zs|] eqn:Es; [|discriminate].
      inversion Hf0. exists z. split; auto.
      destruct (ckd c); cbn in *; [congruence| |].
      + inversion Hu as [|? ? (q & t & Eq & Et' & Hrt) _]; subst; cbn in *. rewrite Es in Eq.
        inversion Eq; inversion Et'; subst. lra.
      + inversion Hl as [|? ? (q & t & Eq & Et' & Hrt) _]; subst; cbn in *. rewrite Es in Et'.
        inversion Eq; inversion Et'; subst. lra.
  Qed.
End Equiv.
