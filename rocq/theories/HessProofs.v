(** Second derivatives: values and symmetry. *)
From Verif Require Import Base Num Node NodeDiff NodeStd NodeInd World Fresh MapProofs EvalProofs
     StdPropProofs PathProofs DerivProofs DiffSpec DiffProofs.
From Coq Require Import Reals Lra.
Local Open Scope R_scope.

(** The first derivative as an expression over possibly undefined values. *)
Fixpoint DX (vs : valsX) (v n : nodeX) : X :=
  match n with
  | NConst _ _ => Some 0
  | NVar _ _ _ => Some (if ptr_eq n v then 1 else 0)
  | NAdd _ args => xsum (map (DX vs v) args)
  | NCos _ a => x2 Rmult (x1 Ropp (x1 sin (evaluate vs a))) (DX vs v a)
  | NSin _ a => x2 Rmult (x1 cos (evaluate vs a)) (DX vs v a)
  | NDiv _ a b =>
    x2 Rplus (x2 Rmult (xdiv (Some 1) (evaluate vs b)) (DX vs v a))
             (x2 Rmult (xdiv (x1 Ropp (evaluate vs a)) (x2 Rmult (evaluate vs b) (evaluate vs b))) (DX vs v b))
  | NMul _ a b =>
    x2 Rplus (x2 Rmult (evaluate vs b) (DX vs v a)) (x2 Rmult (evaluate vs a) (DX vs v b))
  end.

Lemma xsum_somes {A} (f : A -> R) l : xsum (map (fun a => Some (f a)) l) = Some (Rsum (map f l)).
Proof. induction l as [|a l IH]; [reflexivity|]. cbn [map]. rewrite xsum_cons, IH. reflexivity. Qed.

Lemma DX_Dv k (S : nodeX -> Prop) (vs : valsX) (v n : nodeX) z :
  world true k S -> S n -> evaluate vs n = Some z -> DX vs v n = Some (Dv vs v n).
Proof.
  intros HW Hn. revert z.
  induction n as [i w|i st kd|i args IH|i a IHa|i a b IHa IHb|i a b IHa IHb|i a IHa] using node_ind';
    intros z Hz; rewrite Dv_eq; cbn [is_var andb arguments map Rsum DX].
  - f_equal; lra.
  - f_equal. rewrite Rplus_0_r. reflexivity.
  - rewrite Forall_forall in IH. rewrite Rplus_0_l. cbn [pv].
    rewrite <- xsum_somes. f_equal. apply map_ext_in. intros c Hc. rewrite Rmult_1_l.
    destruct (evaluate_arg vs (NAdd i args) c z Hc Hz) as [y Hy].
    eapply IH; eauto. eapply w_closed; eauto.
  - assert (exists y, evaluate vs a = Some y) as [y Hy] by (eapply evaluate_arg; [|exact Hz]; cbn; auto).
    cbn [pv]. rewrite (rv_some _ _ _ Hy), Hy, (IHa (w_closed _ _ _ HW _ a Hn (or_introl eq_refl)) y Hy).
    cbn. f_equal; lra.
  - assert (exists y, evaluate vs a = Some y) as [ya Hya] by (eapply evaluate_arg; [|exact Hz]; cbn; auto).
    assert (exists y, evaluate vs b = Some y) as [yb Hyb] by (eapply evaluate_arg; [|exact Hz]; cbn; auto).
    assert (Hne : yb <> 0).
    { cbn [evaluate] in Hz. rewrite Hya, Hyb in Hz. cbn in Hz. destruct (Req_EM_T yb 0); [discriminate|auto]. }
    cbn [pv]. rewrite ptr_eq_refl. destruct (ptr_eq a b) eqn:Eab.
    { exfalso. pose proof (w_shape _ _ _ HW _ Hn) as Hsh. cbn in Hsh.
      destruct Hsh as (_ & _ & Hn'). apply Hn'; auto. apply ptr_eq_nid; auto. }
    rewrite (rv_some _ _ _ Hya), (rv_some _ _ _ Hyb), Hya, Hyb.
    rewrite (IHa (w_closed _ _ _ HW _ a Hn (or_introl eq_refl)) ya Hya).
    rewrite (IHb (w_closed _ _ _ HW _ b Hn (or_intror (or_introl eq_refl))) yb Hyb).
    cbn. destruct (Req_EM_T yb 0); [contradiction|].
    destruct (Req_EM_T (yb * yb) 0) as [H0|H0].
    { exfalso. apply Rmult_integral in H0 as [|]; contradiction. }
    cbn. f_equal; lra.
  - assert (exists y, evaluate vs a = Some y) as [ya Hya] by (eapply evaluate_arg; [|exact Hz]; cbn; auto).
    assert (exists y, evaluate vs b = Some y) as [yb Hyb] by (eapply evaluate_arg; [|exact Hz]; cbn; auto).
    cbn [pv]. rewrite ptr_eq_refl.
    rewrite (rv_some _ _ _ Hya), (rv_some _ _ _ Hyb), Hya, Hyb.
    assert (Hif : (if ptr_eq a b then yb else ya) = ya).
    { destruct (ptr_eq a b) eqn:Eab; auto.
      assert (a = b) by (eapply (world_ptr_eq true k S); eauto; eapply w_closed; eauto; cbn; auto).
      subst; congruence. }
    rewrite Hif.
    rewrite (IHa (w_closed _ _ _ HW _ a Hn (or_introl eq_refl)) ya Hya).
    rewrite (IHb (w_closed _ _ _ HW _ b Hn (or_intror (or_introl eq_refl))) yb Hyb).
    cbn. f_equal; lra.
  - assert (exists y, evaluate vs a = Some y) as [y Hy] by (eapply evaluate_arg; [|exact Hz]; cbn; auto).
    cbn [pv]. rewrite (rv_some _ _ _ Hy), Hy, (IHa (w_closed _ _ _ HW _ a Hn (or_introl eq_refl)) y Hy).
    cbn. f_equal; lra.
Qed.

(** The second derivative by [v1] and [v2]; manifestly symmetric. *)
Fixpoint D2 (vs : valsX) (v1 v2 n : nodeX) : R :=
  match n with
  | NConst _ _ | NVar _ _ _ => 0
  | NAdd _ args => Rsum (map (D2 vs v1 v2) args)
  | NCos _ a => - cos (rv vs a) * (Dv vs v1 a * Dv vs v2 a) - sin (rv vs a) * D2 vs v1 v2 a
  | NSin _ a => - sin (rv vs a) * (Dv vs v1 a * Dv vs v2 a) + cos (rv vs a) * D2 vs v1 v2 a
  | NDiv _ a b =>
    D2 vs v1 v2 a / rv vs b
    - (Dv vs v1 a * Dv vs v2 b + Dv vs v2 a * Dv vs v1 b) / (rv vs b * rv vs b)
    - rv vs a * D2 vs v1 v2 b / (rv vs b * rv vs b)
    + 2 * rv vs a * (Dv vs v1 b * Dv vs v2 b) / (rv vs b * rv vs b * rv vs b)
  | NMul _ a b =>
    D2 vs v1 v2 a * rv vs b + (Dv vs v1 a * Dv vs v2 b + Dv vs v2 a * Dv vs v1 b)
    + rv vs a * D2 vs v1 v2 b
  end.

Lemma D2_sym vs v1 v2 n : D2 vs v1 v2 n = D2 vs v2 v1 n.
Proof.
  induction n as [i w|i st kd|i args IH|i a IHa|i a b IHa IHb|i a b IHa IHb|i a IHa] using node_ind';
    cbn [D2]; auto.
  - f_equal. apply map_ext_in. intros c Hc. rewrite Forall_forall in IH. auto.
  - rewrite IHa. lra.
  - rewrite IHa, IHb, (Rplus_comm (Dv vs v1 a * Dv vs v2 b)), (Rmult_comm (Dv vs v1 b)). reflexivity.
  - rewrite IHa, IHb, (Rplus_comm (Dv vs v1 a * Dv vs v2 b)). reflexivity.
  - rewrite IHa. lra.
Qed.

Lemma hd_eq g x l l' : l = l' -> has_derivative g x l -> has_derivative g x l'.
Proof. intros ->; auto. Qed.

Lemma DX_deriv k (S : nodeX -> Prop) (vs : valsX) (v1 v2 n : nodeX) x0 z :
  world true k S -> S n -> is_var v2 = true ->
  evaluate vs v2 = Some x0 -> evaluate vs n = Some z ->
  has_derivative (fun t => DX (upd vs v2 t) v1 n) x0 (D2 vs v1 v2 n).
Proof.
  intros HW Hn Hvar Hv. revert z.
  assert (DXs : forall m y, S m -> evaluate vs m = Some y -> DX (upd vs v2 x0) v1 m = Some (Dv vs v1 m)).
  { intros m y Hm Hy. rewrite <- (DX_Dv k S vs v1 m y); auto.
    clear -Hv Hvar. induction m as [i w|i st kd|i args IH|i a IHa|i a b IHa IHb|i a b IHa IHb|i a IHa] using node_ind';
      cbn [DX]; auto; rewrite ?evaluate_upd_self by auto; try congruence.
    f_equal. apply map_ext_in. intros c Hc. rewrite Forall_forall in IH. auto. }
  induction n as [i w|i st kd|i args IH|i a IHa|i a b IHa IHb|i a b IHa IHb|i a IHa] using node_ind';
    intros z Hz; cbn [DX D2].
  - apply hd_const.
  - apply hd_const.
  - apply (hd_xsum (fun a t => DX (upd vs v2 t) v1 a) args x0 (fun c => D2 vs v1 v2 c)).
    intros c Hc. rewrite Forall_forall in IH.
    destruct (evaluate_arg vs (NAdd i args) c z Hc Hz) as [y Hy].
    eapply IH; eauto. eapply w_closed; eauto.
  - assert (exists y, evaluate vs a = Some y) as [y Hy] by (eapply evaluate_arg; [|exact Hz]; cbn; auto).
    assert (Sa : S a) by exact (w_closed _ _ _ HW _ a Hn (or_introl eq_refl)).
    rewrite (rv_some _ _ _ Hy).
    eapply hd_eq; [|eapply (hd_mult (fun t => x1 Ropp (x1 sin (evaluate (upd vs v2 t) a))) (fun t => DX (upd vs v2 t) v1 a))].
    5:{ eapply IHa; eauto. }
    4:{ apply (hd_comp Ropp _ _ (sin y) (cos y * Dv vs v2 a) (-1)).
        - rewrite evaluate_upd_self, Hy; auto.
        - apply (derivable_pt_lim_ext_loc (opp_fct id) _ _ _ (mkposreal 1 Rlt_0_1)); auto.
          apply derivable_pt_lim_opp, derivable_pt_lim_id.
        - apply (hd_comp sin _ _ y); [rewrite evaluate_upd_self; auto|apply derivable_pt_lim_sin|].
          eapply Dv_correct; eauto. }
    3:{ eapply DXs; eauto. }
    2:{ rewrite evaluate_upd_self, Hy by auto. reflexivity. }
    lra.
  - assert (exists y, evaluate vs a = Some y) as [ya Hya] by (eapply evaluate_arg; [|exact Hz]; cbn; auto).
    assert (exists y, evaluate vs b = Some y) as [yb Hyb] by (eapply evaluate_arg; [|exact Hz]; cbn; auto).
    assert (Sa : S a) by exact (w_closed _ _ _ HW _ a Hn (or_introl eq_refl)).
    assert (Sb : S b) by exact (w_closed _ _ _ HW _ b Hn (or_intror (or_introl eq_refl))).
    assert (Hne : yb <> 0).
    { cbn [evaluate] in Hz. rewrite Hya, Hyb in Hz. cbn in Hz. destruct (Req_EM_T yb 0); [discriminate|auto]. }
    assert (Hne2 : yb * yb <> 0) by (intros H0; apply Rmult_integral in H0 as [|]; contradiction).
    rewrite (rv_some _ _ _ Hya), (rv_some _ _ _ Hyb).
    pose proof (Dv_correct k S vs v2 a x0 ya HW Sa Hvar Hv Hya) as Da.
    pose proof (Dv_correct k S vs v2 b x0 yb HW Sb Hvar Hv Hyb) as Db.
    eapply hd_eq; [|apply hd_plus;
      [eapply (hd_mult (fun t => xdiv (Some 1) (evaluate (upd vs v2 t) b)) (fun t => DX (upd vs v2 t) v1 a))
      |eapply (hd_mult (fun t => xdiv (x1 Ropp (evaluate (upd vs v2 t) a))
                                      (x2 Rmult (evaluate (upd vs v2 t) b) (evaluate (upd vs v2 t) b)))
                       (fun t => DX (upd vs v2 t) v1 b))]].
    2:{ rewrite evaluate_upd_self, Hyb by auto. cbn. destruct (Req_EM_T yb 0); [contradiction|reflexivity]. }
    2:{ eapply DXs; eauto. }
    2:{ eapply (hd_div (fun _ => Some 1)); [reflexivity|rewrite evaluate_upd_self; eauto|exact Hne|apply hd_const|exact Db]. }
    2:{ eapply IHa; eauto. }
    2:{ rewrite !evaluate_upd_self, Hya, Hyb by auto. cbn. destruct (Req_EM_T (yb * yb) 0); [contradiction|reflexivity]. }
    2:{ eapply DXs; eauto. }
    2:{ eapply (hd_div (fun t => x1 Ropp (evaluate (upd vs v2 t) a))
                 (fun t => x2 Rmult (evaluate (upd vs v2 t) b) (evaluate (upd vs v2 t) b)) _ _ _ (- ya) (yb * yb)).
        - rewrite evaluate_upd_self, Hya by auto. reflexivity.
        - rewrite evaluate_upd_self, Hyb by auto. reflexivity.
        - exact Hne2.
        - apply (hd_comp Ropp _ _ ya (Dv vs v2 a) (-1)).
          + rewrite evaluate_upd_self; auto.
          + apply (derivable_pt_lim_ext_loc (opp_fct id) _ _ _ (mkposreal 1 Rlt_0_1)); auto.
            apply derivable_pt_lim_opp, derivable_pt_lim_id.
          + exact Da.
        - eapply (hd_mult (fun t => evaluate (upd vs v2 t) b) (fun t => evaluate (upd vs v2 t) b) _ _ _ yb yb);
            [rewrite evaluate_upd_self; auto|rewrite evaluate_upd_self; auto|exact Db|exact Db]. }
    2:{ eapply IHb; eauto. }
    field. auto.
  - assert (exists y, evaluate vs a = Some y) as [ya Hya] by (eapply evaluate_arg; [|exact Hz]; cbn; auto).
    assert (exists y, evaluate vs b = Some y) as [yb Hyb] by (eapply evaluate_arg; [|exact Hz]; cbn; auto).
    assert (Sa : S a) by exact (w_closed _ _ _ HW _ a Hn (or_introl eq_refl)).
    assert (Sb : S b) by exact (w_closed _ _ _ HW _ b Hn (or_intror (or_introl eq_refl))).
    rewrite (rv_some _ _ _ Hya), (rv_some _ _ _ Hyb).
    pose proof (Dv_correct k S vs v2 a x0 ya HW Sa Hvar Hv Hya) as Da.
    pose proof (Dv_correct k S vs v2 b x0 yb HW Sb Hvar Hv Hyb) as Db.
    eapply hd_eq; [|apply hd_plus;
      [eapply (hd_mult (fun t => evaluate (upd vs v2 t) b) (fun t => DX (upd vs v2 t) v1 a))
      |eapply (hd_mult (fun t => evaluate (upd vs v2 t) a) (fun t => DX (upd vs v2 t) v1 b))]].
    2:{ rewrite evaluate_upd_self; eauto. }
    2:{ eapply DXs; eauto. }
    2:{ exact Db. }
    2:{ eapply IHa; eauto. }
    2:{ rewrite evaluate_upd_self; eauto. }
    2:{ eapply DXs; eauto. }
    2:{ exact Da. }
    2:{ eapply IHb; eauto. }
    lra.
  - assert (exists y, evaluate vs a = Some y) as [y Hy] by (eapply evaluate_arg; [|exact Hz]; cbn; auto).
    assert (Sa : S a) by exact (w_closed _ _ _ HW _ a Hn (or_introl eq_refl)).
    rewrite (rv_some _ _ _ Hy).
    eapply hd_eq; [|eapply (hd_mult (fun t => x1 cos (evaluate (upd vs v2 t) a)) (fun t => DX (upd vs v2 t) v1 a))].
    5:{ eapply IHa; eauto. }
    4:{ apply (hd_comp cos _ _ y (Dv vs v2 a) (- sin y)).
        - rewrite evaluate_upd_self; auto.
        - apply derivable_pt_lim_cos.
        - eapply Dv_correct; eauto. }
    3:{ eapply DXs; eauto. }
    2:{ rewrite evaluate_upd_self, Hy by auto. reflexivity. }
    lra.
Qed.

(** *** The second derivative nodes. *)
Lemma upd_defined vs (v w : nodeX) t x :
  is_var w = true -> evaluate vs w = Some x -> exists y, evaluate (upd vs v t) w = Some y.
Proof.
  intros Hw Hx. destruct (ptr_eq w v) eqn:E.
  - exists t. apply evaluate_upd_same; auto.
  - exists x. rewrite evaluate_upd_other; auto.
Qed.

Lemma D2_second_partial k (S : nodeX -> Prop) (vs : valsX) (v1 v2 n : nodeX) x1 x2 z :
  world true k S -> S n -> is_var v1 = true -> is_var v2 = true ->
  evaluate vs v1 = Some x1 -> evaluate vs v2 = Some x2 -> evaluate vs n = Some z ->
  has_second_partial n vs v1 v2 (D2 vs v1 v2 n).
Proof.
  intros HW Hn H1 H2 E1 E2 Hz.
  destruct (DX_deriv k S vs v1 v2 n x2 z HW Hn H2 E2 Hz) as (d & g & Hg & Hlim).
  destruct (Dv_correct k S vs v2 n x2 z HW Hn H2 E2 Hz) as (d' & f & Hf & _).
  assert (Hm : 0 < Rmin d d') by (apply Rmin_pos; apply cond_pos).
  exists x2, (mkposreal _ Hm), g. split; [exact E2|]. split; [|exact Hlim].
  cbn. intros t Ht.
  assert (T1 : Rabs (t - x2) < d) by (eapply Rlt_le_trans; [exact Ht|apply Rmin_l]).
  assert (T2 : Rabs (t - x2) < d') by (eapply Rlt_le_trans; [exact Ht|apply Rmin_r]).
  specialize (Hg t T1). specialize (Hf t T2).
  rewrite (DX_Dv k S _ v1 n (f t) HW Hn Hf) in Hg. assert (Hg' : Dv (upd vs v2 t) v1 n = g t) by congruence. rewrite <- Hg'.
  destruct (upd_defined vs v2 v1 t x1 H1 E1) as [y Hy]. exists y. split; [exact Hy|].
  eapply Dv_correct; eauto.
Qed.

Lemma second_partial_unique n vs v1 v2 l l' :
  has_second_partial n vs v1 v2 l -> has_second_partial n vs v1 v2 l' -> l = l'.
Proof.
  intros (x & d & g & Ex & Hg & Hl) (x' & d' & g' & Ex' & Hg' & Hl').
  assert (x' = x) by congruence. subst x'.
  assert (Hm : 0 < Rmin d d') by (apply Rmin_pos; apply cond_pos).
  eapply uniqueness_limite; [|exact Hl'].
  apply (derivable_pt_lim_ext_loc g g' x l (mkposreal _ Hm)); auto. cbn. intros t Ht.
  assert (T1 : Rabs (t - x) < d) by (eapply Rlt_le_trans; [exact Ht|apply Rmin_l]).
  assert (T2 : Rabs (t - x) < d') by (eapply Rlt_le_trans; [exact Ht|apply Rmin_r]).
  destruct (Hg t T1) as (y & Hy & D). destruct (Hg' t T2) as (y' & Hy' & D').
  assert (y' = y) by congruence. subst. eapply has_derivative_unique; eauto.
Qed.

(** The node obtained by differentiating twice evaluates to [D2]. *)
Theorem second_derivative_val k k' (S S' : nodeX -> Prop) (vs : valsX) (self v1 v2 d dd : nodeX) q1 q2 q3 q4 x1 x2 z :
  world true k S -> S self -> world true k' S' -> S' d ->
  is_var v1 = true -> is_var v2 = true ->
  path_sum (rpaths v1 self) q1 = Ok (d, q2) -> path_sum (rpaths v2 d) q3 = Ok (dd, q4) ->
  evaluate vs v1 = Some x1 -> evaluate vs v2 = Some x2 -> evaluate vs self = Some z ->
  evaluate vs dd = Some (D2 vs v1 v2 self).
Proof.
  intros HW Hs HW' Hd H1 H2 P1 P2 E1 E2 Hz.
  pose proof (path_sum_Dv vs v1 self z _ _ _ Hz P1) as Vd.
  rewrite (path_sum_Dv vs v2 d _ _ _ _ Vd P2). f_equal.
  destruct (Dv_correct k' S' vs v2 d x2 _ HW' Hd H2 E2 Vd) as (e1 & g & Hg & Hlim).
  destruct (Dv_correct k S vs v2 self x2 z HW Hs H2 E2 Hz) as (e2 & f & Hf & _).
  assert (Hm : 0 < Rmin e1 e2) by (apply Rmin_pos; apply cond_pos).
  eapply (second_partial_unique self vs v1 v2); [|exact (D2_second_partial k S vs v1 v2 self x1 x2 z HW Hs H1 H2 E1 E2 Hz)].
  exists x2, (mkposreal _ Hm), g. split; [exact E2|]. split; [|exact Hlim].
  cbn. intros t Ht.
  assert (T1 : Rabs (t - x2) < e1) by (eapply Rlt_le_trans; [exact Ht|apply Rmin_l]).
  assert (T2 : Rabs (t - x2) < e2) by (eapply Rlt_le_trans; [exact Ht|apply Rmin_r]).
  specialize (Hg t T1). specialize (Hf t T2).
  rewrite (path_sum_Dv _ v1 self _ _ _ _ Hf P1) in Hg. assert (Hg' : Dv (upd vs v2 t) v1 self = g t) by congruence. rewrite <- Hg'.
  destruct (upd_defined vs v2 v1 t x1 H1 E1) as [y Hy]. exists y. split; [exact Hy|].
  exact (Dv_correct k S _ v1 self y (f t) HW Hs H1 Hy Hf).
Qed.
