(** Each constraint has its place in the standard components, for any numbers. *)
From Verif Require Import Base Num Node NodeInd NodeDiff NodeStd Constraint Matrix Problem ModelStd
     ExprSpec World MapProofs StdPropProofs EvalProofs GradProofs OccProofs ConstrProofs PartsProofs ConstrSpec ConstrEquiv StdFacts ModelSpec PlaceSpec.

Section Slots.
  Context {T : Type} `{Num T} `{HashOrd}.
  Hypothesis Hnm : neqb (@nm1 T _) n0 = false.

  (** The standard properties are those of the difference [e] of the two sides of [c]. *)
  Definition differs (c : constraint T) (e : node T) : Prop :=
    (exists k k0, sub_nn (clhs c) (crhs c) k = Ok (e, k0)) /\
    (affb e = true <-> affine_sides c) /\ forall v, In v (map fst (p_a (std_properties e))) <-> constr_var c v.
  Definition slack_entry (s : option (node T)) : list (node T * T) := match s with Some v => [(v, nm1)] | None => [] end.

  (** As [slot_any], in the components, with rows counted from [ar] and [jr]. *)
  Definition slot_code (ar jr k : nat) (cs : cstd T) (c : constraint T) (s : slot T) : Prop :=
    exists e, differs c e /\
    match s with
    | SBound v b => affb e = true /\ bounds_with cs c v b /\ is_var v = true /\
        exists a, p_a (std_properties e) = [(v, a)] /\ neqb a n1 = true /\ b = nneg (p_b (std_properties e))
    | SRow r sl =>
      affb e = true /\ ar <= r /\ nth_error (cs_ca cs) (r - ar) = Some c /\ slack_any k cs c sl /\
      nth_error (cs_b cs) (r - ar) = Some (nneg (p_b (std_properties e))) /\
      Permutation (lrow r (cs_a cs)) (p_a (std_properties e) ++ slack_entry sl)
    | SFun r sl =>
      affb e = false /\ jr <= r /\ nth_error (cs_cj cs) (r - jr) = Some c /\ slack_any k cs c sl /\
      exists f, nth_error (cs_f cs) (r - jr) = Some f /\
        match sl with None => f = e | Some v => exists k2 k3, sub_nn e v k2 = Ok (f, k3) end
    end.

  Lemma one_code nsq k S (c : constraint T) ar jr p ar1 jr1 k1 :
    world nsq k S -> S (clhs c) -> S (crhs c) -> constr_std c ar jr k = Ok ((p, ar1, jr1), k1) ->
    exists s, slot_code ar jr k p c s /\ row_no s = seq ar (ar1 - ar) /\ fun_no s = seq jr (jr1 - jr) /\
      (cs_u p = upper_of (c, s) /\ cs_l p = lower_of (c, s)) /\
      forall v, In v (prop_keys p) <-> constr_var c v \/ In v (slack_of s).
  Proof.
    intros HW Sl Sr E. apply constr_std_inv in E as (e & k0 & sc & k2 & E1 & E2 & E).
    destruct (sub_nn_grows nsq k S _ _ HW Sl Sr _ _ E1) as (K1 & S1 & I1 & W1 & Se).
    destruct (std_components_grows nsq k0 S1 _ W1 Se _ _ E2) as (K2 & S2 & I2 & W2 & _ & _ & _).
    pose proof (world_keys nsq k0 S1 e W1 Se) as Hkeys.
    assert (Hvars : forall v, In v (map fst (p_a (std_properties e))) <-> constr_var c v).
    { intros v. unfold constr_var. rewrite <- (sub_nn_occurs v _ _ _ _ _ Hnm E1). symmetry. symmetry. apply (keys_are_vars nsq k0 S1 e W1 Se). }
    assert (Hd : differs c e).
    { split; [eauto|]. split; [|exact Hvars]. rewrite (sub_nn_affb nsq k S _ _ _ _ _ HW Sl Sr Hnm E1). rewrite andb_true_iff. reflexivity. }
    assert (Kp : forall q (p0 : std_prop T), cs_prop q = [p0] -> prop_keys q = map fst (p_a p0)).
    { intros q p0 Eq. unfold prop_keys. rewrite Eq. cbn. apply app_nil_r. }
    assert (Ks : forall s : node T, is_var s = true -> (k0 <= nid s)%nat -> forall v,
              In v (map fst (hinsert ptr_eq s nm1 (p_a (std_properties e)))) <-> constr_var c v \/ In v [s]).
    { intros s Hsv Hsn v. rewrite keys_hinsert, (fresh_keys nsq k0 S1 e s W1 Se Hsv Hsn), in_app_iff, Hvars. reflexivity. }
    destruct E as [x v Ha Hp Hv Hne|Ha He|s Ha Hne Hb Hs|Ha He|s f k3 m1 Ha Hne Hs Ef Hm1].
    - exists (SBound x (nneg (p_b (std_properties e)))). split; [|rewrite !Nat.sub_diag; split; [reflexivity|]; split; [reflexivity|]; split].
      2: { cbnc. unfold upper_of, lower_of. cbn [fst snd]. destruct (ckd c); try congruence; split; reflexivity. }
      2: { intros w. erewrite Kp by reflexivity. rewrite Hvars. cbn [slack_of In]. tauto. }
      exists e. split; [exact Hd|]. split; [exact Ha|]. split; [unfold bounds_with; cbnc; destruct (ckd c); cbn; auto|].
      split; [|eauto]. rewrite Hp in Hkeys. inversion Hkeys as [|? ? [_ Hx] _]; subst. exact Hx.
    - exists (SRow ar None). split; [|replace (Datatypes.S ar - ar) with 1 by lia; rewrite Nat.sub_diag; split; [reflexivity|]; split; [reflexivity|]; split].
      2: { cbnc. unfold upper_of, lower_of. cbn [fst snd]. rewrite He. split; reflexivity. }
      2: { intros w. erewrite Kp by reflexivity. rewrite Hvars. cbn [slack_of In]. tauto. }
      exists e. split; [exact Hd|]. split; [exact Ha|]. cbnc. rewrite Nat.sub_diag. cbn [nth_error]. split; [lia|]. split; [auto|]. split; [exact He|].
      split; [reflexivity|]. rewrite lrow_all. cbn [slack_entry]. rewrite app_nil_r. apply ord_perm.
    - exists (SRow ar (Some s)). split; [|replace (Datatypes.S ar - ar) with 1 by lia; rewrite Nat.sub_diag; split; [reflexivity|]; split; [reflexivity|]; split].
      2: { cbnc. unfold upper_of, lower_of. cbn [fst snd]. destruct (ckd c); try congruence; split; reflexivity. }
      2: { intros w. erewrite Kp by reflexivity. cbn [p_a slack_of]. apply Ks; rewrite Hs; cbn; [reflexivity|lia]. }
      exists e. split; [exact Hd|]. split; [exact Ha|]. cbnc. rewrite Nat.sub_diag. cbn [nth_error]. split; [lia|]. split; [auto|]. split.
      + split; [rewrite Hs; cbn; lia|]. split; [rewrite Hs; eauto|]. unfold bounds_with; cbnc.
        destruct (ckd c); cbn; auto.
      + split; [reflexivity|]. rewrite lrow_app, lrow_all. unfold lrow at 1. cbn [filter fst snd map]. rewrite Nat.eqb_refl. cbn [map fst snd slack_entry].
        apply Permutation_app_tail, ord_perm.
    - exists (SFun jr None). split; [|replace (Datatypes.S jr - jr) with 1 by lia; rewrite Nat.sub_diag; split; [reflexivity|]; split; [reflexivity|]; split].
      2: { cbnc. unfold upper_of, lower_of. cbn [fst snd]. rewrite He. split; reflexivity. }
      2: { intros w. erewrite Kp by reflexivity. rewrite Hvars. cbn [slack_of In]. tauto. }
      exists e. split; [exact Hd|]. split; [exact Ha|]. cbnc. rewrite Nat.sub_diag. cbn [nth_error]. split; [lia|]. split; [auto|]. split; [exact He|]. eauto.
    - exists (SFun jr (Some s)). split; [|replace (Datatypes.S jr - jr) with 1 by lia; rewrite Nat.sub_diag; split; [reflexivity|]; split; [reflexivity|]; split].
      2: { cbnc. unfold upper_of, lower_of. cbn [fst snd]. destruct (ckd c); try congruence; split; reflexivity. }
      2: { intros w. erewrite Kp by reflexivity. cbn [p_a slack_of]. apply Ks; rewrite Hs; cbn; [reflexivity|lia]. }
      exists e. split; [exact Hd|]. split; [exact Ha|]. cbnc. rewrite Nat.sub_diag. cbn [nth_error]. split; [lia|]. split; [auto|]. split.
      + split; [rewrite Hs; cbn; lia|]. split; [rewrite Hs; eauto|]. unfold bounds_with; cbnc.
        destruct (ckd c); cbn; auto.
      + eauto.
  Qed.

  Lemma bwith_app_l (p q : cstd T) c v b : bounds_with p c v b -> bounds_with (cstd_app p q) c v b.
  Proof. unfold bounds_with, cstd_app; cbnc. destruct (ckd c); auto; intros; apply in_or_app; auto. Qed.
  Lemma bwith_app_r (p q : cstd T) c v b : bounds_with q c v b -> bounds_with (cstd_app p q) c v b.
  Proof. unfold bounds_with, cstd_app; cbnc. destruct (ckd c); auto; intros; apply in_or_app; auto. Qed.
  Lemma slack_any_l k p q c sl : slack_any k p c sl -> slack_any k (cstd_app p q) c sl.
  Proof. destruct sl; cbn; [|auto]. intros (H1 & H2 & H3). split; [exact H1|]. split; [exact H2|]. apply (bwith_app_l p q); auto. Qed.
  Lemma slack_any_r k k1 p q c sl : k <= k1 -> slack_any k1 q c sl -> slack_any k (cstd_app p q) c sl.
  Proof. intros Hk. destruct sl; cbn; [|auto]. intros (H1 & H2 & H3). split; [lia|]. split; [exact H2|]. apply (bwith_app_r p q); auto. Qed.

  Lemma code_app_l ar jr k p q c s ar1 jr1 ar2 jr2 :
    part_rows ar jr p ar1 jr1 -> part_rows ar1 jr1 q ar2 jr2 ->
    slot_code ar jr k p c s -> slot_code ar jr k (cstd_app p q) c s.
  Proof.
    intros [A B C D E F G] [A' B' C' D' E' F' G'] (e & Hd & Hs). exists e. split; [exact Hd|]. destruct s as [v b|r sl|r sl].
    - destruct Hs as (Ha0 & H1 & H2). split; [exact Ha0|]. split; [apply bwith_app_l; auto|auto].
    - destruct Hs as (Ha0 & H1 & H2 & H3 & H4 & H5).
      assert (Hlt : r - ar < length (cs_b p)) by (apply nth_error_Some; congruence).
      split; auto. split; auto. split; [unfold cstd_app; cbnc; rewrite nth_error_app1; auto; rewrite B; auto|]. split; [apply slack_any_l; auto|].
      unfold cstd_app; cbnc. split; [rewrite nth_error_app1; auto|]. rewrite lrow_app.
      rewrite (lrow_none r (cs_a q) ar1 ar2), app_nil_r; auto. left. lia.
    - destruct Hs as (Ha0 & H1 & H2 & H3 & f & H4 & H5).
      assert (Hlt : r - jr < length (cs_f p)) by (apply nth_error_Some; congruence).
      split; auto. split; auto. split; [unfold cstd_app; cbnc; rewrite nth_error_app1; auto; rewrite E; auto|]. split; [apply slack_any_l; auto|].
      unfold cstd_app; cbnc. exists f. split; [rewrite nth_error_app1; auto|exact H5].
  Qed.
  Lemma code_app_r ar jr k k1 p q c s ar1 jr1 ar2 jr2 :
    part_rows ar jr p ar1 jr1 -> part_rows ar1 jr1 q ar2 jr2 -> k <= k1 ->
    slot_code ar1 jr1 k1 q c s -> slot_code ar jr k (cstd_app p q) c s.
  Proof.
    intros [A B C D E F G] [A' B' C' D' E' F' G'] Hk (e & Hd & Hs). exists e. split; [exact Hd|]. destruct s as [v b|r sl|r sl].
    - destruct Hs as (Ha0 & H1 & H2). split; [exact Ha0|]. split; [apply bwith_app_r; auto|auto].
    - destruct Hs as (Ha0 & H1 & H2 & H3 & H4 & H5).
      split; auto. split; [lia|]. split; [unfold cstd_app; cbnc; rewrite nth_error_app2 by lia; rewrite <- H2; f_equal; lia|]. split; [eapply slack_any_r; eauto|].
      unfold cstd_app; cbnc. split; [rewrite nth_error_app2 by lia; rewrite <- H4; f_equal; lia|]. rewrite lrow_app.
      rewrite (lrow_none r (cs_a p) ar ar1); auto.
    - destruct Hs as (Ha0 & H1 & H2 & H3 & f & H4 & H5).
      split; auto. split; [lia|]. split; [unfold cstd_app; cbnc; rewrite nth_error_app2 by lia; rewrite <- H2; f_equal; lia|]. split; [eapply slack_any_r; eauto|].
      unfold cstd_app; cbnc. exists f. split; [rewrite nth_error_app2 by lia; rewrite <- H4; f_equal; lia|exact H5].
  Qed.

  Theorem parts_codes nsq S cs ar jr k ps ar' jr' k' :
    world nsq k S -> Forall (fun c => S (clhs c) /\ S (crhs c)) cs ->
    parts cs ar jr k ps ar' jr' k' ->
    exists slots, Forall2 (slot_code ar jr k (cat ps)) cs slots /\
      flat_map row_no slots = seq ar (ar' - ar) /\ flat_map fun_no slots = seq jr (jr' - jr) /\
      (cs_u (cat ps) = flat_map upper_of (combine cs slots) /\ cs_l (cat ps) = flat_map lower_of (combine cs slots)) /\
      (forall v, In v (prop_keys (cat ps)) <->
                (exists c, In c cs /\ constr_var c v) \/ In v (flat_map slack_of slots)) /\
      NoDup (flat_map slack_of slots) /\ Forall (fun v => k <= nid v < k') (flat_map slack_of slots).
  Proof.
    intros HW HS HP; revert S HW HS.
    induction HP as [ar jr k|c cs ar jr k p ar1 jr1 k1 ps ar2 jr2 k2 E HP IH]; intros S HW HS.
    - exists []. rewrite !Nat.sub_diag. split; [constructor|]. repeat (split; [reflexivity|]). split; [split; reflexivity|].
      split; [|split; [constructor|constructor]].
      intros v. cbn. split; [intros []|]. intros [(c & [] & _)|[]].
    - inversion HS as [|? ? [Sl Sr] HS']; subst.
      destruct (one_code nsq k S c ar jr p ar1 jr1 k1 HW Sl Sr E) as (s & Hs & Hr & Hf & (Hbu & Hbl) & Hbk).
      destruct (constr_std_in nsq k S c ar jr p ar1 jr1 k1 HW Sl Sr E) as (K1 & S1 & I1 & W1 & P1).
      destruct (IH S1 W1) as (slots & Hsl & Hrs & Hfs & (Hbus & Hbls) & Hbks & Hnd & Hrg).
      { eapply Forall_impl; [|exact HS']. intros d []; auto. }
      pose proof (constr_std_rows _ _ _ _ _ _ _ _ E) as R1. pose proof (parts_rows _ _ _ _ _ _ _ _ HP) as R2.
      exists (s :: slots). change (cat (p :: ps)) with (cstd_app p (cat ps)).
      assert (Hnew : forall v, In v (slack_of s) -> k <= nid v).
      { intros v Hv. destruct Hs as (e & _ & Hs). destruct s as [v0 b|r [v0|]|r [v0|]]; cbn in Hv; try contradiction; destruct Hv as [<-|[]];
          destruct Hs as (_ & _ & _ & (Hk & _) & _); exact Hk. }
      assert (Hrg1 : Forall (fun v => k <= nid v < k1) (slack_of s) /\ NoDup (slack_of s)).
      { split; [|destruct s as [v b|r [v|]|r [v|]]; repeat constructor; intros []].
        apply Forall_forall. intros v Hv.
        destruct (constr_std_keys nsq k S c ar jr p ar1 jr1 k1 v HW Sl Sr E) as [Ho|[Ho|[Ho _]]].
        - apply Hbk. auto.
        - exfalso. specialize (Hnew v Hv). pose proof (w_lt _ _ _ HW _ (world_sub _ _ _ _ _ HW Sl (proj2 Ho))). lia.
        - exfalso. specialize (Hnew v Hv). pose proof (w_lt _ _ _ HW _ (world_sub _ _ _ _ _ HW Sr (proj2 Ho))). lia.
        - exact Ho. }
      destruct Hrg1 as [Hrg1 Hnd1].
      assert (K2 : k1 <= k2) by (eapply (proj1 (parts_in nsq S1 cs ar1 jr1 k1 ps ar2 jr2 k2 W1 ltac:(eapply Forall_impl; [|exact HS']; intros d []; auto) HP))).
      split; [|split; [|split; [|split; [|split; [|split]]]]].
      + constructor; [eapply code_app_l; eauto|]. revert R1 R2 K1 Hsl. clear. intros R1 R2 K1 Hsl.
        induction Hsl; constructor; auto. eapply code_app_r; eauto.
      + cbn [flat_map]. rewrite Hr, Hrs. pose proof (pr_ar _ _ _ _ _ R1). pose proof (pr_ar _ _ _ _ _ R2).
        replace (ar2 - ar) with ((ar1 - ar) + (ar2 - ar1)) by lia. rewrite seq_app. f_equal. f_equal. lia.
      + cbn [flat_map]. rewrite Hf, Hfs. pose proof (pr_jr _ _ _ _ _ R1). pose proof (pr_jr _ _ _ _ _ R2).
        replace (jr2 - jr) with ((jr1 - jr) + (jr2 - jr1)) by lia. rewrite seq_app. f_equal. f_equal. lia.
      + unfold cstd_app. cbnc. cbn [combine flat_map]. rewrite Hbu, Hbl, Hbus, Hbls. split; reflexivity.
      + intros v. rewrite prop_keys_app, in_app_iff, Hbk, Hbks. cbn [flat_map]. rewrite in_app_iff. split.
        * intros [[Ho|Ho]|[(d & Hd & Ho)|Ho]]; auto; left; [exists c|exists d]; cbn; auto.
        * intros [(d & [<-|Hd] & Ho)|[Ho|Ho]]; eauto 6.
      + cbn [flat_map]. revert Hnd1 Hrg1. generalize (slack_of s) as l. rewrite Forall_forall in Hrg.
        induction l as [|v l IHl]; intros Hnd1 Hrg1; cbn; [exact Hnd|].
        inversion Hnd1; inversion Hrg1; subst. constructor; [|apply IHl; auto].
        intros Hin. apply in_app_or in Hin as [Hin|Hin]; [contradiction|]. apply Hrg in Hin. lia.
      + cbn [flat_map]. apply Forall_app. split; (eapply Forall_impl; [|eassumption]); cbn; intros; lia.
  Qed.
End Slots.
