(** First and second derivatives of the rows of a standard problem. *)
From Verif Require Import Base Num Node NodeInd NodeDiff NodeStd Constraint Matrix Problem ModelStd
     ExprSpec World MapProofs StdPropProofs EvalProofs DiffSpec DiffProofs PanicProofs GradProofs HessProofs CompProofs
     OccProofs ConstrSpec ConstrProofs ConstrEquiv PartsProofs StdFacts.
From Coq Require Import Reals Lra.
Local Open Scope R_scope.

(** No other node passes for the variable [v] in [f]. *)
Definition coh (v f : nodeX) : Prop := forall w, occurs w f -> ptr_eq w v = true -> w = v.

(** The entries [gs] are the first derivatives of [f]. *)
Definition grad_ok (f : nodeX) (gs : list (nodeX * nodeX)) : Prop :=
  NoDup (map fst gs) /\
  forall v (vs : valsX) z x0, evaluate vs f = Some z -> is_var v = true -> evaluate vs v = Some x0 -> coh v f ->
    exists l, has_partial f vs v l /\
      ((exists d, In (v, d) gs /\ evaluate vs d = Some l) \/ (~ In v (map fst gs) /\ l = 0)).
(** The entries [hs] are the second derivatives of [f], each unordered pair once. *)
Definition hess_ok (f : nodeX) (hs : list (nodeX * nodeX * nodeX)) : Prop :=
  forall v1 v2 (vs : valsX) z x1 x2, evaluate vs f = Some z ->
    is_var v1 = true -> is_var v2 = true -> evaluate vs v1 = Some x1 -> evaluate vs v2 = Some x2 ->
    coh v1 f -> coh v2 f ->
    exists l, has_second_partial f vs v1 v2 l /\ has_second_partial f vs v2 v1 l /\
      ((exists d, (In (v1, v2, d) hs \/ In (v2, v1, d) hs) /\ evaluate vs d = Some l) \/
       (~ In (v1, v2) (map fst hs) /\ ~ In (v2, v1) (map fst hs) /\ l = 0)).

Lemma partial_absent (f v : nodeX) vs x0 z :
  is_var v = true -> evaluate vs v = Some x0 -> evaluate vs f = Some z ->
  (forall w, occurs w f -> ptr_eq w v = false) -> has_partial f vs v 0.
Proof.
  intros Hv Ev Ef Hno. exists x0. split; [exact Ev|]. eapply hd_ext; [|apply (hd_const z)].
  intros t. rewrite <- Ef. apply evaluate_ext. intros w Hw. symmetry. apply evaluate_upd_other; [apply Hw|auto].
Qed.

(** ** The components of an expression *)
Section Comp.
  Context `{HashOrd}.
  Lemma comp_grad_ok k S (e : nodeX) sc k' :
    world true k S -> S e -> std_components e k = Ok (sc, k') -> grad_ok e (sc_gphi sc).
  Proof.
    intros HW Se E. destruct (gphi_correct k S e sc k' HW Se E) as (H1 & H2 & H3). split; [exact H1|].
    intros v vs z x0 Ez Hv Ev Hc. destruct (Classical_Prop.classic (In v (map fst (sc_gphi sc)))) as [Hin|Hin].
    - apply in_map_iff in Hin as ([v' d] & <- & Hin). cbn [fst] in *.
      destruct (H3 _ _ vs z Hin Ez) as (l & El & Hl). exists l. split; [exact Hl|]. left. eauto.
    - exists 0. split; [|auto]. eapply partial_absent; eauto. intros w Hw.
      apply not_true_is_false. intros Ep. apply Hin. rewrite <- (Hc w Hw Ep). apply H2. exact Hw.
  Qed.
  Lemma comp_hess_ok k S (e : nodeX) sc k' :
    world true k S -> S e -> std_components e k = Ok (sc, k') -> hess_ok e (sc_hphi sc).
  Proof.
    intros HW Se E. destruct (hphi_correct k S e sc k' HW Se E) as (H1 & H2 & H3 & H4).
    intros v1 v2 vs z y1 y2 Ez V1 V2 Y1 Y2 C1 C2.
    destruct (Classical_Prop.classic (In (v1, v2) (map fst (sc_hphi sc)))) as [Hin|N1].
    - apply in_map_iff in Hin as ([p d] & Ep & Hin). cbn [fst] in Ep. subst p.
      destruct (H3 _ _ _ vs z Hin Ez) as (_ & _ & l & El & L1 & L2). exists l. split; [exact L1|]. split; [exact L2|]. left. eauto.
    - destruct (Classical_Prop.classic (In (v2, v1) (map fst (sc_hphi sc)))) as [Hin|N2].
      + apply in_map_iff in Hin as ([p d] & Ep & Hin). cbn [fst] in Ep. subst p.
        destruct (H3 _ _ _ vs z Hin Ez) as (_ & _ & l & El & L1 & L2). exists l. split; [exact L2|]. split; [exact L1|]. left. eauto.
      + assert (G : forall a b xa xb, is_var a = true -> is_var b = true -> evaluate vs a = Some xa -> evaluate vs b = Some xb ->
                   coh a e -> coh b e -> ~ In (a, b) (map fst (sc_hphi sc)) -> ~ In (b, a) (map fst (sc_hphi sc)) ->
                   has_second_partial e vs a b 0).
        { intros a b xa xb Va Vb Ya Yb Ca Cb Na Nb.
          destruct (Classical_Prop.classic (occurs a e)) as [Oa|Oa].
          - destruct (Classical_Prop.classic (occurs b e)) as [Ob|Ob].
            + exact (H4 a b vs xa xb z Va Vb Ya Yb Ez Na Nb Oa Ob).
            + eapply (second_partial_absent k S e a b vs); eauto. right. intros w Hw. apply not_true_is_false.
              intros Ep. apply Ob. rewrite <- (Cb w Hw Ep). exact Hw.
          - eapply (second_partial_absent k S e a b vs); eauto. left. intros w Hw. apply not_true_is_false.
            intros Ep. apply Oa. rewrite <- (Ca w Hw Ep). exact Hw. }
        exists 0. split; [exact (G v1 v2 y1 y2 V1 V2 Y1 Y2 C1 C2 N1 N2)|].
        split; [exact (G v2 v1 y2 y1 V2 V1 Y2 Y1 C2 C1 N2 N1)|]. right. auto.
  Qed.
End Comp.

(** ** Subtracting a slack *)
Section Slack.
  Variables (e s f : nodeX).
  Hypothesis Hs : is_var s = true.
  Hypothesis Hval : forall vs : valsX, evaluate vs f = x2 Rminus (evaluate vs e) (evaluate vs s).
  Hypothesis Hocc : forall w, occurs w f <-> occurs w e \/ occurs w s.
  Hypothesis Hfresh : forall w, occurs w e -> ptr_eq w s = false.

  Definition delta (v : nodeX) : R := if ptr_eq s v then 1 else 0.

  Lemma slack_partial vs v l zs :
    evaluate vs s = Some zs -> is_var v = true -> has_partial e vs v l -> has_partial f vs v (l - delta v).
  Proof.
    intros Es Hv (x0 & Ev & Hd). exists x0. split; [exact Ev|].
    eapply hd_ext; [intros t; symmetry; apply Hval|].
    assert (Hds : has_derivative (fun t => x2 Rmult (Some (-(1))) (evaluate (upd vs v t) s)) x0 (- delta v)).
    { unfold delta. destruct (ptr_eq s v) eqn:Ep.
      - eapply hd_eq; [|eapply (hd_mult (fun _ => Some (-(1))) (fun t => evaluate (upd vs v t) s) x0 0 1 (-(1)) x0)].
        + lra.
        + reflexivity.
        + apply evaluate_upd_same; auto.
        + apply hd_const.
        + eapply hd_ext; [|apply hd_id]. intros t. symmetry. apply evaluate_upd_same; auto.
      - eapply hd_eq; [|apply (hd_ext (fun _ => Some (-(1) * zs))); [|apply hd_const]].
        + lra.
        + intros t. rewrite evaluate_upd_other, Es; auto. }
    eapply hd_ext; [|eapply hd_eq; [|apply (hd_plus _ _ _ _ _ Hd Hds)]].
    - intros t. cbn beta. destruct (evaluate (upd vs v t) e), (evaluate (upd vs v t) s); cbn; try reflexivity. f_equal. lra.
    - lra.
  Qed.
  Lemma slack_second vs v1 v2 l zs :
    evaluate vs s = Some zs -> is_var v1 = true -> is_var v2 = true ->
    has_second_partial e vs v1 v2 l -> has_second_partial f vs v1 v2 l.
  Proof.
    intros Es V1 V2 (x2 & d & g & Ex & Hg & Hl). exists x2, d, (fun t => g t - delta v1). split; [exact Ex|]. split.
    - intros t Ht. destruct (upd_defined vs v2 s t zs Hs Es) as [y Hy]. eapply slack_partial; eauto.
    - replace l with (l - 0) by lra. apply (derivable_pt_lim_minus g (fct_cte (delta v1))); [exact Hl|].
      apply derivable_pt_lim_const.
  Qed.

  Lemma coh_e v : coh v f -> coh v e.
  Proof. intros Hc w Hw. apply Hc. apply Hocc. auto. Qed.
  Lemma coh_s v : coh v f -> ptr_eq s v = true -> v = s.
  Proof. intros Hc Ep. symmetry. apply (Hc s); auto. apply Hocc. right. split; [exact Hs|constructor]. Qed.

  Lemma slack_grad_ok gs i : grad_ok e gs -> (forall v, In v (map fst gs) -> occurs v e) ->
    grad_ok f (gs ++ [(s, NConst i (Some (-(1))))]).
  Proof.
    intros [Hn Hg] Hk. split.
    - rewrite map_app. cbn. apply NoDup_app_intro; [exact Hn|repeat constructor; auto|].
      intros w Hw [<-|[]]. pose proof (Hfresh _ (Hk _ Hw)) as E0. rewrite ptr_eq_refl in E0. discriminate.
    - intros v vs z x0 Ez Hv Ev Hc. rewrite Hval in Ez.
      destruct (evaluate vs e) as [ze|] eqn:Ee; [|discriminate]. destruct (evaluate vs s) as [zs|] eqn:Es; [|discriminate].
      destruct (ptr_eq s v) eqn:Ep.
      + apply coh_s in Ep; auto. subst v. exists (0 - delta s). split.
        * eapply slack_partial; eauto. eapply partial_absent; eauto.
        * left. exists (NConst i (Some (-(1)))). split; [apply in_or_app; cbn; auto|]. cbn. unfold delta.
          rewrite ptr_eq_refl. f_equal. lra.
      + destruct (Hg v vs ze x0 Ee Hv Ev (coh_e v Hc)) as (l & Hl & Hcase). exists (l - delta v).
        split; [eapply slack_partial; eauto|]. unfold delta. rewrite Ep, Rminus_0_r. destruct Hcase as [(d & Hd & El)|[Hnin ->]].
        * left. exists d. split; [apply in_or_app; auto|exact El].
        * right. split; auto. rewrite map_app, in_app_iff. cbn. intros [Hin|[->|[]]]; auto. rewrite ptr_eq_refl in Ep. discriminate.
  Qed.
  Lemma slack_hess_ok hs : hess_ok e hs -> hess_ok f hs.
  Proof.
    intros Hh v1 v2 vs z y1 y2 Ez V1 V2 Y1 Y2 C1 C2. rewrite Hval in Ez.
    destruct (evaluate vs e) as [ze|] eqn:Ee; [|discriminate]. destruct (evaluate vs s) as [zs|] eqn:Es; [|discriminate].
    destruct (Hh v1 v2 vs ze y1 y2 Ee V1 V2 Y1 Y2 (coh_e _ C1) (coh_e _ C2)) as (l & L1 & L2 & Hcase).
    exists l. split; [eapply slack_second; eauto|]. split; [eapply slack_second; eauto|]. exact Hcase.
  Qed.
End Slack.

(** ** All the nonlinear functions of a list of constraints *)
(** The entries [(variable, derivative)] of row [r]. *)
Definition jrow {T A} (r : nat) (l : list (nat * node T * A)) : list (node T * A) :=
  map (fun e => (snd (fst e), snd e)) (filter (fun e => (fst (fst e) =? r)%nat) l).

Lemma jrow_app {T A} r (l l' : list (nat * node T * A)) : jrow r (l ++ l') = jrow r l ++ jrow r l'.
Proof. unfold jrow. rewrite filter_app, map_app. reflexivity. Qed.
Lemma jrow_none {T A} r (l : list (nat * node T * A)) lo hi :
  Forall (fun e => (lo <= fst (fst e) < hi)%nat) l -> (r < lo \/ hi <= r)%nat -> jrow r l = [].
Proof.
  intros HF Hr. unfold jrow. induction HF as [|x l Hx HF IH]; auto. cbn [filter].
  destruct (Nat.eqb_spec (fst (fst x)) r); [lia|]. exact IH.
Qed.
Lemma jrow_all {T A} r (l : list (node T * A)) : jrow r (map (fun ge => (r, fst ge, snd ge)) l) = l.
Proof.
  unfold jrow. induction l as [|[v d] l IH]; auto. cbn [map filter fst snd]. rewrite Nat.eqb_refl. cbn. f_equal. exact IH.
Qed.

Section PartsOk.
  Context `{HashOrd}.
  Lemma parts_fun_ok S cs ar jr k ps ar' jr' k' :
    world true k S -> Forall (fun c => S (clhs c) /\ S (crhs c)) cs ->
    parts (T := X) cs ar jr k ps ar' jr' k' ->
    forall r f, nth_error (cs_f (cat ps)) r = Some f ->
      grad_ok f (jrow (jr + r) (cs_j (cat ps))) /\
      exists hs, nth_error (cs_h (cat ps)) r = Some hs /\ hess_ok f hs.
  Proof.
    intros HW HS HP; revert S HW HS.
    induction HP as [ar jr k|c cs ar jr k p ar1 jr1 k1 ps ar2 jr2 k2 E HP IH]; intros S HW HS r f Hf.
    - destruct r; discriminate.
    - inversion HS as [|? ? [Sl Sr] HS']; subst.
      pose proof (constr_std_rows _ _ _ _ _ _ _ _ E) as [_ _ _ Q1 _ Q2 Q3].
      pose proof (parts_rows _ _ _ _ _ _ _ _ HP) as [_ _ _ Q1' _ Q2' Q3'].
      destruct (constr_std_in true k S c ar jr p ar1 jr1 k1 HW Sl Sr E) as (K1 & S1 & I1 & W1 & _).
      specialize (IH S1 W1). assert (HS1 : Forall (fun c => S1 (clhs c) /\ S1 (crhs c)) cs).
      { eapply Forall_impl; [|exact HS']. cbn; intuition. }
      specialize (IH HS1). change (cat (p :: ps)) with (cstd_app p (cat ps)) in *. cbn [cs_f cs_j cs_h cstd_app] in *.
      rewrite jrow_app.
      destruct (Nat.lt_ge_cases r (length (cs_f p))) as [Hr|Hr].
      + rewrite nth_error_app1 in Hf by exact Hr. rewrite nth_error_app1 by (rewrite Q2; exact Hr).
        rewrite (jrow_none _ (cs_j (cat ps)) jr1 jr2 Q3') by lia. rewrite app_nil_r. clear IH HP Q1' Q2' Q3'.
        apply constr_std_inv in E as (e & ke & sc & ks & E1 & E2 & E).
        destruct (sub_nn_grows true k S _ _ HW Sl Sr _ _ E1) as (K2 & S2 & I2 & W2 & Se).
        pose proof (std_components_grows true ke S2 e W2 Se _ _ E2) as (K3 & S3 & I3 & W3 & _).
        pose proof (comp_grad_ok ke S2 e sc ks W2 Se E2) as Gg.
        pose proof (comp_hess_ok ke S2 e sc ks W2 Se E2) as Gh.
        destruct E as [x v Ha Hp0 Hv Hk|Ha Hk|s Ha Hk Hb Es|Ha Hk|s g k3 m1 Ha Hk Es E3 Em];
          cbn [cs_f cs_j cs_h length] in *; try lia; (destruct r as [|r]; [|lia]); cbn [nth_error] in *;
          injection Hf as <-; rewrite Nat.add_0_r.
        * rewrite jrow_all. split; [exact Gg|]. eauto.
        * assert (Hs : is_var s = true) by (subst s; reflexivity).
          assert (Hid : nid s = ks) by (subst s; reflexivity). clear Es.
          assert (Hfr : forall w, occurs w e -> ptr_eq w s = false).
          { intros w Hw. apply not_true_is_false. intros Ep. apply ptr_eq_nid in Ep.
            pose proof (w_lt _ _ _ W3 w (world_sub true ks S3 e w W3 (I3 _ Se) (proj2 Hw))). lia. }
          assert (Hval : forall vs : valsX, evaluate vs g = x2 Rminus (evaluate vs e) (evaluate vs s)).
          { intros vs. eapply sub_nn_exact; eauto. }
          assert (Hocc : forall w, occurs w g <-> occurs w e \/ occurs w s).
          { intros w. eapply sub_nn_occurs; [apply xeqb_some_false; lra|exact E3]. }
          rewrite jrow_app, jrow_all. subst m1. split.
          -- replace (jrow jr [(jr, s, NConst k3 nm1)]) with [(s, NConst k3 (Some (-(1))))].
             2:{ unfold jrow. cbn [filter fst snd]. rewrite Nat.eqb_refl. reflexivity. }
             apply (slack_grad_ok e s g Hs Hval Hocc Hfr); [exact Gg|].
             intros w Hw. apply keys_occur. apply (gphi_keys _ _ _ _ E2). exact Hw.
          -- exists (sc_hphi sc). split; [reflexivity|]. exact (slack_hess_ok e s g Hs Hval Hocc _ Gh).
      + rewrite nth_error_app2 in Hf by exact Hr. rewrite nth_error_app2 by (rewrite Q2; exact Hr). rewrite Q2.
        rewrite (jrow_none _ (cs_j p) jr jr1 Q3) by lia. cbn [app].
        destruct (IH _ _ Hf) as [G1 G2]. replace (jr + r)%nat with (jr1 + (r - length (cs_f p)))%nat by lia. auto.
  Qed.
End PartsOk.
