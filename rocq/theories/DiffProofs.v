(** Correctness of derivatives. *)
From Verif Require Import Base Num Node NodeDiff NodeInd World Fresh MapProofs EvalProofs
     StdPropProofs PathProofs DerivProofs DiffSpec.
From Coq Require Import Reals Lra.
Local Open Scope R_scope.

Lemma derivable_pt_lim_ext_loc f g x l (d : posreal) :
  (forall t, Rabs (t - x) < d -> f t = g t) -> derivable_pt_lim f x l -> derivable_pt_lim g x l.
Proof.
  intros Hfg Hf eps Heps. destruct (Hf eps Heps) as [d' Hd'].
  assert (Hm : 0 < Rmin d d') by (apply Rmin_pos; apply cond_pos).
  exists (mkposreal _ Hm). cbn. intros h Hh Hlt.
  assert (H1 : Rabs h < d) by (eapply Rlt_le_trans; [exact Hlt|apply Rmin_l]).
  assert (H2 : Rabs h < d') by (eapply Rlt_le_trans; [exact Hlt|apply Rmin_r]).
  rewrite <- (Hfg (x + h)), <- (Hfg x).
  - apply Hd'; auto.
  - replace (x - x) with 0 by lra. rewrite Rabs_R0. apply cond_pos.
  - replace (x + h - x) with h by lra. exact H1.
Qed.

Lemma has_derivative_unique g x l1 l2 :
  has_derivative g x l1 -> has_derivative g x l2 -> l1 = l2.
Proof.
  intros (d1 & f1 & G1 & H1) (d2 & f2 & G2 & H2).
  assert (Hm : 0 < Rmin d1 d2) by (apply Rmin_pos; apply cond_pos).
  eapply uniqueness_limite; [|exact H2].
  apply (derivable_pt_lim_ext_loc f1 f2 x l1 (mkposreal _ Hm)); auto. cbn. intros t Ht.
  assert (Some (f1 t) = Some (f2 t)); [|congruence].
  rewrite <- G1, <- G2; auto; eapply Rlt_le_trans; eauto; [apply Rmin_r|apply Rmin_l].
Qed.

Lemma hd_ext g1 g2 x l : (forall t, g1 t = g2 t) -> has_derivative g1 x l -> has_derivative g2 x l.
Proof. intros He (d & f & G & H). exists d, f. split; auto. intros t Ht. rewrite <- He; auto. Qed.

Lemma hd_const c x : has_derivative (fun _ => Some c) x 0.
Proof. exists (mkposreal 1 Rlt_0_1), (fun _ => c). split; auto. apply derivable_pt_lim_const. Qed.
Lemma hd_id x : has_derivative (fun t => Some t) x 1.
Proof. exists (mkposreal 1 Rlt_0_1), id. split; auto. apply derivable_pt_lim_id. Qed.

Lemma hd_combine (op : X -> X -> X) (opr : R -> R -> R) g1 g2 x l1 l2 l :
  (forall a b, op (Some a) (Some b) = Some (opr a b)) ->
  (forall f1 f2, derivable_pt_lim f1 x l1 -> derivable_pt_lim f2 x l2 ->
      g1 x = Some (f1 x) -> g2 x = Some (f2 x) ->
      derivable_pt_lim (fun t => opr (f1 t) (f2 t)) x l) ->
  has_derivative g1 x l1 -> has_derivative g2 x l2 ->
  has_derivative (fun t => op (g1 t) (g2 t)) x l.
Proof.
  intros Hop Hd (d1 & f1 & G1 & H1) (d2 & f2 & G2 & H2).
  assert (Hm : 0 < Rmin d1 d2) by (apply Rmin_pos; apply cond_pos).
  exists (mkposreal _ Hm), (fun t => opr (f1 t) (f2 t)). split.
  - cbn. intros t Ht. rewrite G1, G2; auto; eapply Rlt_le_trans; eauto; [apply Rmin_r|apply Rmin_l].
  - apply Hd; auto; [apply G1|apply G2]; replace (x - x) with 0 by lra; rewrite Rabs_R0; apply cond_pos.
Qed.

Lemma hd_plus g1 g2 x l1 l2 :
  has_derivative g1 x l1 -> has_derivative g2 x l2 ->
  has_derivative (fun t => x2 Rplus (g1 t) (g2 t)) x (l1 + l2).
Proof.
  apply (hd_combine _ Rplus); auto. intros f1 f2 H1 H2 _ _. apply (derivable_pt_lim_plus f1 f2); auto.
Qed.

Lemma hd_mult g1 g2 x l1 l2 y1 y2 :
  g1 x = Some y1 -> g2 x = Some y2 ->
  has_derivative g1 x l1 -> has_derivative g2 x l2 ->
  has_derivative (fun t => x2 Rmult (g1 t) (g2 t)) x (y2 * l1 + y1 * l2).
Proof.
  intros E1 E2. apply (hd_combine _ Rmult); auto. intros f1 f2 H1 H2 F1 F2.
  assert (y1 = f1 x) as -> by congruence. assert (y2 = f2 x) as -> by congruence.
  replace (f2 x * l1 + f1 x * l2) with (l1 * f2 x + f1 x * l2) by lra.
  apply (derivable_pt_lim_mult f1 f2); auto.
Qed.

Lemma hd_comp (h : R -> R) g x y l m :
  g x = Some y -> derivable_pt_lim h y m -> has_derivative g x l ->
  has_derivative (fun t => x1 h (g t)) x (m * l).
Proof.
  intros Ey Hh (d & f & G & H). exists d, (fun t => h (f t)). split.
  - intros t Ht. rewrite G; auto.
  - apply (derivable_pt_lim_comp f h); auto.
    assert (y = f x) as <-; auto.
    assert (Some y = Some (f x)); [|congruence]. rewrite <- Ey. apply G.
    replace (x - x) with 0 by lra; rewrite Rabs_R0; apply cond_pos.
Qed.

Lemma hd_div g1 g2 x l1 l2 y1 y2 :
  g1 x = Some y1 -> g2 x = Some y2 -> y2 <> 0 ->
  has_derivative g1 x l1 -> has_derivative g2 x l2 ->
  has_derivative (fun t => xdiv (g1 t) (g2 t)) x (1 / y2 * l1 + - y1 / (y2 * y2) * l2).
Proof.
  intros E1 E2 Hne (d1 & f1 & G1 & H1) (d2 & f2 & G2 & H2).
  assert (Hx : Rabs (x - x) < d1 /\ Rabs (x - x) < d2).
  { replace (x - x) with 0 by lra; rewrite Rabs_R0; split; apply cond_pos. }
  assert (F1 : f1 x = y1) by (assert (Some y1 = Some (f1 x)) by (rewrite <- E1; apply G1, Hx); congruence).
  assert (F2 : f2 x = y2) by (assert (Some y2 = Some (f2 x)) by (rewrite <- E2; apply G2, Hx); congruence).
  (* the denominator stays away from zero *)
  assert (Hc : continuity_pt f2 x).
  { apply derivable_continuous_pt. exists l2. exact H2. }
  assert (Ha : 0 < Rabs y2) by (apply Rabs_pos_lt; auto).
  destruct (Hc (Rabs y2) Ha) as (d3 & Hd3 & Hlim).
  assert (Hm : 0 < Rmin (Rmin d1 d2) d3).
  { repeat apply Rmin_pos; auto; apply cond_pos. }
  exists (mkposreal _ Hm), (fun t => f1 t / f2 t). split.
  - cbn. intros t Ht.
    assert (T1 : Rabs (t - x) < d1).
    { eapply Rlt_le_trans; [exact Ht|]. eapply Rle_trans; [apply Rmin_l|apply Rmin_l]. }
    assert (T2 : Rabs (t - x) < d2).
    { eapply Rlt_le_trans; [exact Ht|]. eapply Rle_trans; [apply Rmin_l|apply Rmin_r]. }
    assert (T3 : Rabs (t - x) < d3) by (eapply Rlt_le_trans; [exact Ht|apply Rmin_r]).
    rewrite G1, G2; auto. cbn. destruct (Req_EM_T (f2 t) 0) as [Hz|Hz]; auto. exfalso.
    destruct (Req_EM_T t x) as [->|Htx]; [congruence|].
    assert (Hd : dist R_met (f2 t) (f2 x) < Rabs y2).
    { apply Hlim. split; [split; [exact I|auto]|]. exact T3. }
    cbn in Hd. unfold R_dist in Hd. rewrite Hz, F2, Rabs_minus_sym in Hd.
    replace (y2 - 0) with y2 in Hd by lra. lra.
  - assert (Hdiv : derivable_pt_lim (f1 / f2) x ((l1 * f2 x - l2 * f1 x) / Rsqr (f2 x))).
    { apply derivable_pt_lim_div; auto. congruence. }
    rewrite F1, F2 in Hdiv.
    replace (1 / y2 * l1 + - y1 / (y2 * y2) * l2) with ((l1 * y2 - l2 * y1) / Rsqr y2); auto.
    unfold Rsqr. field; auto.
Qed.

(** *** Updating a variable. *)
Lemma evaluate_upd_other vs (v : nodeX) t (w : nodeX) :
  is_var w = true -> ptr_eq w v = false -> evaluate (upd vs v t) w = evaluate vs w.
Proof.
  intros Hw E. destruct w; try discriminate. cbn [evaluate]. unfold upd.
  rewrite pget_other; auto.
Qed.
Lemma evaluate_upd_same vs (v : nodeX) t (w : nodeX) :
  is_var w = true -> ptr_eq w v = true -> evaluate (upd vs v t) w = Some t.
Proof.
  intros Hw E. destruct w; try discriminate. cbn [evaluate]. unfold upd.
  rewrite pget_same; auto.
Qed.

(** Two valuations agreeing on the variables that occur. *)
Lemma evaluate_ext {T} `{Num T} (vs vs' : vals T) (n : node T) :
  (forall v, occurs v n -> evaluate vs v = evaluate vs' v) -> evaluate vs n = evaluate vs' n.
Proof.
  induction n as [i w|i st kd|i args IH|i a IHa|i a b IHa IHb|i a b IHa IHb|i a IHa] using node_ind';
    intros Hv.
  - reflexivity.
  - apply Hv. split; [reflexivity|constructor].
  - cbn [evaluate]. rewrite Forall_forall in IH.
    assert (G : forall x, In x args -> evaluate vs x = evaluate vs' x).
    { intros x Hx. apply IH; auto. intros v [H1 H2]. apply Hv. split; auto. eapply sub_arg; eauto. }
    clear IH Hv. generalize (n0 : T) as acc. induction args as [|x args IH]; intros acc; cbn [fold_left]; auto.
    rewrite G by (cbn; auto). apply IH. intros y Hy; apply G; cbn; auto.
  - cbn [evaluate]. rewrite IHa; auto. intros v [H1 H2]; apply Hv; split; auto. eapply sub_arg; [|exact H2]; cbn; auto.
  - cbn [evaluate]. rewrite IHa, IHb; auto; intros v [H1 H2]; apply Hv; split; auto; eapply sub_arg; [|exact H2| |exact H2]; cbn; auto.
  - cbn [evaluate]. rewrite IHa, IHb; auto; intros v [H1 H2]; apply Hv; split; auto; eapply sub_arg; [|exact H2| |exact H2]; cbn; auto.
  - cbn [evaluate]. rewrite IHa; auto. intros v [H1 H2]; apply Hv; split; auto. eapply sub_arg; [|exact H2]; cbn; auto.
Qed.

Lemma evaluate_upd_self vs (v : nodeX) x0 (n : nodeX) :
  is_var v = true -> evaluate vs v = Some x0 -> evaluate (upd vs v x0) n = evaluate vs n.
Proof.
  intros Hv Ev. apply evaluate_ext. intros w [Hw _]. destruct (ptr_eq w v) eqn:E.
  - rewrite evaluate_upd_same; auto. rewrite (evaluate_var_ptr_eq vs w v); auto.
  - apply evaluate_upd_other; auto.
Qed.

Lemma hd_xsum {A} (g : A -> R -> X) (l : list A) x (D : A -> R) :
  (forall a, In a l -> has_derivative (g a) x (D a)) ->
  has_derivative (fun t => xsum (map (fun a => g a t) l)) x (Rsum (map D l)).
Proof.
  induction l as [|a l IH]; intros Hl; cbn [map Rsum].
  - apply (hd_const 0).
  - eapply hd_ext; [intros t; symmetry; apply xsum_cons|]. apply hd_plus.
    + apply Hl; cbn; auto.
    + apply IH. intros b Hb; apply Hl; cbn; auto.
Qed.

Theorem Dv_correct k (S : nodeX -> Prop) (vs : valsX) (v n : nodeX) x0 z :
  world true k S -> S n -> is_var v = true ->
  evaluate vs v = Some x0 -> evaluate vs n = Some z ->
  has_derivative (fun t => evaluate (upd vs v t) n) x0 (Dv vs v n).
Proof.
  intros HW Hn Hvar Hv. revert z.
  induction n as [i w|i st kd|i args IH|i a IHa|i a b IHa IHb|i a b IHa IHb|i a IHa] using node_ind';
    intros z Hz; rewrite Dv_eq; cbn [is_var andb arguments map Rsum].
  - cbn in Hz. subst w. rewrite !Rplus_0_r. apply hd_const.
  - rewrite Rplus_0_r. destruct (ptr_eq (NVar i st kd) v) eqn:E.
    + eapply hd_ext; [intros t; symmetry; apply evaluate_upd_same; auto|]. apply hd_id.
    + eapply hd_ext; [intros t; symmetry; rewrite evaluate_upd_other by auto; exact Hz|]. apply hd_const.
  - rewrite Rplus_0_l. eapply hd_ext; [intros t; symmetry; apply evaluate_add|].
    apply (hd_xsum (fun a t => evaluate (upd vs v t) a) args x0 (fun c => 1 * Dv vs v c)).
    intros c Hc. rewrite Forall_forall in IH. rewrite Rmult_1_l.
    destruct (evaluate_arg vs (NAdd i args) c z Hc Hz) as [y Hy].
    eapply IH; eauto. eapply w_closed; eauto.
  - rewrite Rplus_0_l, Rplus_0_r. cbn [evaluate pv].
    assert (exists y, evaluate vs a = Some y) as [y Hy] by (eapply evaluate_arg; [|exact Hz]; cbn; auto).
    apply (hd_comp cos _ _ (rv vs a)).
    + rewrite evaluate_upd_self, (rv_some _ _ _ Hy); auto.
    + apply derivable_pt_lim_cos.
    + eapply IHa; eauto. eapply w_closed; eauto. cbn; auto.
  - rewrite Rplus_0_l, Rplus_0_r. cbn [pv evaluate]. rewrite ptr_eq_refl.
    destruct (ptr_eq a b) eqn:Eab.
    + exfalso. pose proof (w_shape _ _ _ HW _ Hn) as Hsh. cbn in Hsh.
      destruct Hsh as (_ & _ & Hne). apply Hne; auto. apply ptr_eq_nid; auto.
    + assert (exists y, evaluate vs a = Some y) as [ya Hya] by (eapply evaluate_arg; [|exact Hz]; cbn; auto).
      assert (exists y, evaluate vs b = Some y) as [yb Hyb] by (eapply evaluate_arg; [|exact Hz]; cbn; auto).
      assert (Hne : yb <> 0).
      { cbn [evaluate] in Hz. rewrite Hya, Hyb in Hz. cbn in Hz. destruct (Req_EM_T yb 0); [discriminate|auto]. }
      rewrite (rv_some _ _ _ Hya), (rv_some _ _ _ Hyb).
      apply (hd_div (fun t => evaluate (upd vs v t) a) (fun t => evaluate (upd vs v t) b)).
      * rewrite evaluate_upd_self; auto.
      * rewrite evaluate_upd_self; auto.
      * auto.
      * eapply IHa; eauto. eapply w_closed; eauto. cbn; auto.
      * eapply IHb; eauto. eapply w_closed; eauto. cbn; auto.
  - rewrite Rplus_0_l, Rplus_0_r. cbn [pv evaluate]. rewrite ptr_eq_refl.
    assert (exists y, evaluate vs a = Some y) as [ya Hya] by (eapply evaluate_arg; [|exact Hz]; cbn; auto).
    assert (exists y, evaluate vs b = Some y) as [yb Hyb] by (eapply evaluate_arg; [|exact Hz]; cbn; auto).
    rewrite (rv_some _ _ _ Hya), (rv_some _ _ _ Hyb).
    assert (Hif : (if ptr_eq a b then yb else ya) = ya).
    { destruct (ptr_eq a b) eqn:Eab; auto.
      assert (a = b) by (eapply (world_ptr_eq true k S); eauto; eapply w_closed; eauto; cbn; auto).
      subst; congruence. }
    rewrite Hif.
    apply (hd_mult (fun t => evaluate (upd vs v t) a) (fun t => evaluate (upd vs v t) b)).
    + rewrite evaluate_upd_self; auto.
    + rewrite evaluate_upd_self; auto.
    + eapply IHa; eauto. eapply w_closed; eauto. cbn; auto.
    + eapply IHb; eauto. eapply w_closed; eauto. cbn; auto.
  - rewrite Rplus_0_l, Rplus_0_r. cbn [evaluate pv].
    assert (exists y, evaluate vs a = Some y) as [y Hy] by (eapply evaluate_arg; [|exact Hz]; cbn; auto).
    apply (hd_comp sin _ _ (rv vs a)).
    + rewrite evaluate_upd_self, (rv_some _ _ _ Hy); auto.
    + apply derivable_pt_lim_sin.
    + eapply IHa; eauto. eapply w_closed; eauto. cbn; auto.
Qed.

(** A returned derivative node, evaluated at a point where the expression has a
    value, is the derivative there. *)
Theorem path_sum_correct ks S (self v d : nodeX) k k' vs x0 z :
  world true ks S -> S self -> is_var v = true ->
  evaluate vs self = Some z -> evaluate vs v = Some x0 ->
  path_sum (rpaths v self) k = Ok (d, k') ->
  exists l, evaluate vs d = Some l /\
            has_derivative (fun t => evaluate (upd vs v t) self) x0 l.
Proof.
  intros HW Hs Hvar Hz Hv E. exists (Dv vs v self). split.
  - eapply path_sum_Dv; eauto.
  - eapply Dv_correct; eauto.
Qed.

Theorem derivative_correct `{HashOrd} S (self v d : nodeX) k k' vs x0 z :
  world true k S -> S self -> derivative self v k = Ok (d, k') ->
  evaluate vs self = Some z -> evaluate vs v = Some x0 ->
  exists l, evaluate vs d = Some l /\
            has_derivative (fun t => evaluate (upd vs v t) self) x0 l.
Proof.
  intros HW Hs E Hz Hv. apply derivative_ok in E as (Hvar & _ & k1 & k2 & E & _).
  eapply path_sum_correct; eauto.
Qed.

(** *** Absent variable *)
Lemma rpaths_absent {T} (v n : node T) :
  (forall w, occurs w n -> ptr_eq w v = false) -> rpaths v n = [].
Proof.
  induction n as [n IH] using node_ind_args. intros Hno. rewrite rpaths_eq.
  destruct (is_var n) eqn:Hv.
  - rewrite Hno; [|split; auto; constructor]. cbn [andb app].
    destruct n; try discriminate. reflexivity.
  - cbn [andb app].
    rewrite (map_ext_in _ (fun _ => [])).
    + induction (rev (arguments n)); auto.
    + intros c Hc. apply in_rev in Hc. rewrite IH; auto.
      intros w [H1 H2]. apply Hno. split; auto. eapply sub_arg; eauto.
Qed.

Theorem derivative_absent {T} `{Num T} `{HashOrd} (self v d : node T) k k' :
  (forall w, occurs w self -> ptr_eq w v = false) ->
  derivative self v k = Ok (d, k') -> exists i, d = NConst i n0.
Proof.
  intros Hno E. apply derivative_ok in E as (Hvar & _ & k1 & k2 & E & _).
  rewrite (rpaths_absent v self Hno) in E. inversion E; subst. eauto.
Qed.
