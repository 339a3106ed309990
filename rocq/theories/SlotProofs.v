(** Each constraint has its place in the standard components. *)
From Verif Require Import Base Num Node NodeInd NodeDiff NodeStd Constraint Matrix Problem ModelStd
     ExprSpec World MapProofs StdPropProofs EvalProofs GradProofs OccProofs ConstrProofs PartsProofs ConstrSpec ConstrEquiv ModelSpec.
From Coq Require Import Reals Lra.

Lemma x_nm1 : neqb (@nm1 X _) n0 = false.
Proof. cbn. destruct (Req_EM_T (- (1)) 0); [lra|reflexivity]. Qed.

Section Slots.
  Context `{HashOrd}.

  (** As [slot_ok], in the components, with rows counted from [ar] and [jr]. *)
  Definition slot_std (ar jr k : nat) (cs : cstd X) (c : constraint X) (s : slot X) : Prop :=
    match s with
    | SBound v b => bounds_with cs c v b /\ is_var v = true /\
                    forall vs, diff vs c = x2 Rminus (evaluate vs v) b
    | SRow r sl =>
      ar <= r /\ nth_error (cs_ca cs) (r - ar) = Some c /\ slack_ok k cs c sl /\
      exists b, nth_error (cs_b cs) (r - ar) = Some b /\
        forall vs, x2 Rminus (lin vs (lrow r (cs_a cs))) b = x2 Rminus (diff vs c) (slack_value vs sl)
    | SFun r sl =>
      jr <= r /\ nth_error (cs_cj cs) (r - jr) = Some c /\ slack_ok k cs c sl /\
      exists f, nth_error (cs_f cs) (r - jr) = Some f /\
        forall vs, evaluate vs f = x2 Rminus (diff vs c) (slack_value vs sl)
    end.

  Lemma one_slot nsq k S (c : constraint X) ar jr p ar1 jr1 k1 :
    world nsq k S -> S (clhs c) -> S (crhs c) -> constr_std c ar jr k = Ok ((p, ar1, jr1), k1) ->
    exists s, slot_std ar jr k p c s /\ row_no s = seq ar (ar1 - ar) /\ fun_no s = seq jr (jr1 - jr) /\
      (cs_u p = upper_of (c, s) /\ cs_l p = lower_of (c, s)) /\
      forall v, In v (prop_keys p) <-> (occurs v (clhs c) \/ occurs v (crhs c)) \/ In v (slack_of s).
  Proof.
    intros HW Sl Sr E. apply constr_std_inv in E as (e & k0 & sc & k2 & E1 & E2 & E).
    assert (Ee : forall vs, evaluate vs e = diff vs c) by (intros vs; exact (sub_nn_exact vs _ _ _ _ _ E1)).
    destruct (sub_nn_grows nsq k S _ _ HW Sl Sr _ _ E1) as (K1 & S1 & I1 & W1 & Se).
    destruct (std_components_grows nsq k0 S1 _ W1 Se _ _ E2) as (K2 & S2 & I2 & W2 & _ & _ & _).
    pose proof (fun vs => affine_value nsq k0 S1 vs e W1 Se) as Hlin.
    pose proof (world_keys nsq k0 S1 e W1 Se) as Hkeys.
    assert (Hvars : forall v, In v (map fst (p_a (std_properties e))) <-> occurs v (clhs c) \/ occurs v (crhs c)).
    { intros v. rewrite <- (sub_nn_occurs v _ _ _ _ _ x_nm1 E1). symmetry. symmetry. apply (keys_are_vars nsq k0 S1 e W1 Se). }
    assert (K1' : forall p0 : std_prop X, prop_keys (mk_cstd [] [] [] [] [] [] [] [] [] [p0]) = map fst (p_a p0)).
    { intros p0. cbn. apply app_nil_r. }
    assert (Kp : forall q (p0 : std_prop X), cs_prop q = [p0] -> prop_keys q = map fst (p_a p0)).
    { intros q p0 Eq. unfold prop_keys. rewrite Eq. cbn. apply app_nil_r. }
    assert (Ks : forall s : nodeX, is_var s = true -> (k0 <= nid s)%nat -> forall v,
              In v (map fst (hinsert ptr_eq s nm1 (p_a (std_properties e)))) <->
              (occurs v (clhs c) \/ occurs v (crhs c)) \/ In v [s]).
    { intros s Hsv Hsn v. rewrite keys_hinsert, (fresh_keys nsq k0 S1 e s W1 Se Hsv Hsn), in_app_iff, Hvars. reflexivity. }
    destruct E as [x v Ha Hp Hv Hne|Ha He|s Ha Hne Hb Hs|Ha He|s f k3 m1 Ha Hne Hs Ef Hm1].
    - exists (SBound x (nneg (p_b (std_properties e)))). split; [|rewrite !Nat.sub_diag; split; [reflexivity|]; split; [reflexivity|]; split].
      2: { cbnc. unfold upper_of, lower_of. cbn [fst snd]. destruct (ckd c); try congruence; split; reflexivity. }
      2: { intros w. erewrite Kp by reflexivity. rewrite Hvars. cbn [slack_of In]. tauto. }
      rewrite Hp in Hkeys. inversion Hkeys as [|? ? [_ Hx] _]; subst.
      split; [|split; [exact Hx|]].
      + unfold bounds_with. cbnc. destruct (ckd c); cbn; auto.
      + intros vs. rewrite <- Ee, (Hlin vs Ha), Hp. apply xeqb_one in Hv as ->.
        rewrite lin_cons. cbn [fst snd]. rewrite xmult_1_l. change (lin vs []) with (Some 0%R). rewrite xplus_0_r.
        destruct (evaluate vs x), (p_b (std_properties e)); cbn; try reflexivity. f_equal. lra.
    - exists (SRow ar None). split; [|replace (Datatypes.S ar - ar) with 1 by lia; rewrite Nat.sub_diag; split; [reflexivity|]; split; [reflexivity|]; split].
      2: { cbnc. unfold upper_of, lower_of. cbn [fst snd]. rewrite He. split; reflexivity. }
      2: { intros w. erewrite Kp by reflexivity. rewrite Hvars. cbn [slack_of In]. tauto. }
      cbn [slot_std]. cbnc. rewrite Nat.sub_diag. cbn [nth_error]. split; [lia|]. split; [auto|]. split; [exact He|].
      eexists. split; [reflexivity|]. intros vs. rewrite lrow_all, (lin_perm vs _ _ (ord_perm _ 4 k2 _)).
      rewrite <- Ee, (Hlin vs Ha). cbn [slack_value].
      destruct (lin vs (p_a (std_properties e))), (p_b (std_properties e)); cbn; try reflexivity. f_equal. lra.
    - exists (SRow ar (Some s)). split; [|replace (Datatypes.S ar - ar) with 1 by lia; rewrite Nat.sub_diag; split; [reflexivity|]; split; [reflexivity|]; split].
      2: { cbnc. unfold upper_of, lower_of. cbn [fst snd]. destruct (ckd c); try congruence; split; reflexivity. }
      2: { intros w. erewrite Kp by reflexivity. cbn [p_a slack_of]. apply Ks; rewrite Hs; cbn; [reflexivity|lia]. }
      cbn [slot_std]. cbnc. rewrite Nat.sub_diag. cbn [nth_error]. split; [lia|]. split; [auto|]. split.
      + split; [rewrite Hs; cbn; lia|]. split; [rewrite Hs; eauto|]. unfold bounds_with; cbnc.
        destruct (ckd c); cbn; auto.
      + clear Hs. eexists. split; [reflexivity|]. intros vs.
        rewrite lrow_app, lrow_all, lin_app, (lin_perm vs _ _ (ord_perm _ 4 k2 _)).
        rewrite <- Ee, (Hlin vs Ha). cbn [slack_value]. unfold lrow. cbn [filter fst snd map].
        rewrite Nat.eqb_refl. cbn [map fst snd]. rewrite lin_cons. cbn [fst snd]. change (lin vs []) with (Some 0%R).
        destruct (lin vs (p_a (std_properties e))), (p_b (std_properties e)), (evaluate vs s); cbn; try reflexivity.
        f_equal. lra.
    - exists (SFun jr None). split; [|replace (Datatypes.S jr - jr) with 1 by lia; rewrite Nat.sub_diag; split; [reflexivity|]; split; [reflexivity|]; split].
      2: { cbnc. unfold upper_of, lower_of. cbn [fst snd]. rewrite He. split; reflexivity. }
      2: { intros w. erewrite Kp by reflexivity. rewrite Hvars. cbn [slack_of In]. tauto. }
      cbn [slot_std]. cbnc. rewrite Nat.sub_diag. cbn [nth_error]. split; [lia|]. split; [auto|]. split; [exact He|].
      eexists. split; [reflexivity|]. intros vs. rewrite Ee. cbn. destruct (diff vs c); cbn; try reflexivity. f_equal. lra.
    - exists (SFun jr (Some s)). split; [|replace (Datatypes.S jr - jr) with 1 by lia; rewrite Nat.sub_diag; split; [reflexivity|]; split; [reflexivity|]; split].
      2: { cbnc. unfold upper_of, lower_of. cbn [fst snd]. destruct (ckd c); try congruence; split; reflexivity. }
      2: { intros w. erewrite Kp by reflexivity. cbn [p_a slack_of]. apply Ks; rewrite Hs; cbn; [reflexivity|lia]. }
      cbn [slot_std]. cbnc. rewrite Nat.sub_diag. cbn [nth_error]. split; [lia|]. split; [auto|]. split.
      + split; [rewrite Hs; cbn; lia|]. split; [rewrite Hs; eauto|]. unfold bounds_with; cbnc.
        destruct (ckd c); cbn; auto.
      + eexists. split; [reflexivity|]. intros vs. rewrite (sub_nn_exact vs _ _ _ _ _ Ef), Ee. reflexivity.
  Qed.

  Lemma bounds_app_l (p q : cstd X) c v b : bounds_with p c v b -> bounds_with (cstd_app p q) c v b.
  Proof. unfold bounds_with, cstd_app; cbnc. destruct (ckd c); auto; intros; apply in_or_app; auto. Qed.
  Lemma bounds_app_r (p q : cstd X) c v b : bounds_with q c v b -> bounds_with (cstd_app p q) c v b.
  Proof. unfold bounds_with, cstd_app; cbnc. destruct (ckd c); auto; intros; apply in_or_app; auto. Qed.

  Lemma slot_app_l ar jr k p q c s ar1 jr1 ar2 jr2 :
    part_rows ar jr p ar1 jr1 -> part_rows ar1 jr1 q ar2 jr2 ->
    slot_std ar jr k p c s -> slot_std ar jr k (cstd_app p q) c s.
  Proof.
    intros [A B C D E F G] [A' B' C' D' E' F' G'] Hs. destruct s as [v b|r sl|r sl]; cbn [slot_std] in *.
    - destruct Hs as (H1 & H2). split; [apply bounds_app_l; auto|auto].
    - destruct Hs as (H1 & H2 & H3 & b & H4 & H5). unfold cstd_app; cbnc.
      assert (Hlt : r - ar < length (cs_b p)) by (apply nth_error_Some; congruence).
      split; auto. split; [rewrite nth_error_app1; auto; rewrite B; auto|]. split.
      + destruct sl; cbn in *; intuition. apply (bounds_app_l p q); auto.
      + exists b. split; [rewrite nth_error_app1; auto|]. intros vs. rewrite <- H5, lrow_app.
        rewrite (lrow_none r (cs_a q) ar1 ar2), app_nil_r; auto. left. lia.
    - destruct Hs as (H1 & H2 & H3 & b & H4 & H5). unfold cstd_app; cbnc.
      assert (Hlt : r - jr < length (cs_f p)) by (apply nth_error_Some; congruence).
      split; auto. split; [rewrite nth_error_app1; auto; rewrite E; auto|]. split.
      + destruct sl; cbn in *; intuition. apply (bounds_app_l p q); auto.
      + exists b. split; [rewrite nth_error_app1; auto|exact H5].
  Qed.
  Lemma slot_app_r ar jr k k1 p q c s ar1 jr1 ar2 jr2 :
    part_rows ar jr p ar1 jr1 -> part_rows ar1 jr1 q ar2 jr2 -> k <= k1 ->
    slot_std ar1 jr1 k1 q c s -> slot_std ar jr k (cstd_app p q) c s.
  Proof.
    intros [A B C D E F G] [A' B' C' D' E' F' G'] Hk Hs. destruct s as [v b|r sl|r sl]; cbn [slot_std] in *.
    - destruct Hs as (H1 & H2). split; [apply bounds_app_r; auto|auto].
    - destruct Hs as (H1 & H2 & H3 & b & H4 & H5). unfold cstd_app; cbnc.
      split; [lia|]. split; [rewrite nth_error_app2 by lia; rewrite <- H2; f_equal; lia|]. split.
      + destruct sl; cbn in *; auto. destruct H3 as (? & ? & ?). split; [lia|]. split; auto. apply (bounds_app_r p q); auto.
      + exists b. split; [rewrite nth_error_app2 by lia; rewrite <- H4; f_equal; lia|]. intros vs. rewrite <- H5, lrow_app.
        rewrite (lrow_none r (cs_a p) ar ar1); auto.
    - destruct Hs as (H1 & H2 & H3 & b & H4 & H5). unfold cstd_app; cbnc.
      split; [lia|]. split; [rewrite nth_error_app2 by lia; rewrite <- H2; f_equal; lia|]. split.
      + destruct sl; cbn in *; auto. destruct H3 as (? & ? & ?). split; [lia|]. split; auto. apply (bounds_app_r p q); auto.
      + exists b. split; [rewrite nth_error_app2 by lia; rewrite <- H4; f_equal; lia|exact H5].
  Qed.

  Theorem parts_slots nsq S cs ar jr k ps ar' jr' k' :
    world nsq k S -> Forall (fun c => S (clhs c) /\ S (crhs c)) cs ->
    parts cs ar jr k ps ar' jr' k' ->
    exists slots, Forall2 (slot_std ar jr k (cat ps)) cs slots /\
      flat_map row_no slots = seq ar (ar' - ar) /\ flat_map fun_no slots = seq jr (jr' - jr) /\
      (cs_u (cat ps) = flat_map upper_of (combine cs slots) /\ cs_l (cat ps) = flat_map lower_of (combine cs slots)) /\
      (forall v, In v (prop_keys (cat ps)) <->
                (exists c, In c cs /\ (occurs v (clhs c) \/ occurs v (crhs c))) \/ In v (flat_map slack_of slots)) /\
      NoDup (flat_map slack_of slots) /\ Forall (fun v => k <= nid v < k') (flat_map slack_of slots).
  Proof.
    intros HW HS HP; revert S HW HS.
    induction HP as [ar jr k|c cs ar jr k p ar1 jr1 k1 ps ar2 jr2 k2 E HP IH]; intros S HW HS.
    - exists []. rewrite !Nat.sub_diag. split; [constructor|]. repeat (split; [reflexivity|]). split; [split; reflexivity|].
      split; [|split; [constructor|constructor]].
      intros v. cbn. split; [intros []|]. intros [(c & [] & _)|[]].
    - inversion HS as [|? ? [Sl Sr] HS']; subst.
      destruct (one_slot nsq k S c ar jr p ar1 jr1 k1 HW Sl Sr E) as (s & Hs & Hr & Hf & (Hbu & Hbl) & Hbk).
      destruct (constr_std_in nsq k S c ar jr p ar1 jr1 k1 HW Sl Sr E) as (K1 & S1 & I1 & W1 & P1).
      destruct (IH S1 W1) as (slots & Hsl & Hrs & Hfs & (Hbus & Hbls) & Hbks & Hnd & Hrg).
      { eapply Forall_impl; [|exact HS']. intros d []; auto. }
      pose proof (constr_std_rows _ _ _ _ _ _ _ _ E) as R1. pose proof (parts_rows _ _ _ _ _ _ _ _ HP) as R2.
      exists (s :: slots). change (cat (p :: ps)) with (cstd_app p (cat ps)).
      assert (Hrg1 : Forall (fun v => k <= nid v < k1) (slack_of s) /\ NoDup (slack_of s)).
      { split; [|destruct s as [v b|r [v|]|r [v|]]; repeat constructor; intros []].
        apply Forall_forall. intros v Hv.
        destruct (constr_std_keys nsq k S c ar jr p ar1 jr1 k1 v HW Sl Sr E) as [Ho|[Ho|[Ho _]]].
        - apply Hbk. auto.
        - exfalso. assert (k <= nid v) by (destruct s as [v0 b|r [v0|]|r [v0|]]; cbn in Hv, Hs; [contradiction| | contradiction | |contradiction];
            destruct Hv as [<-|[]]; intuition).
          pose proof (w_lt _ _ _ HW _ (world_sub _ _ _ _ _ HW Sl (proj2 Ho))). lia.
        - exfalso. assert (k <= nid v) by (destruct s as [v0 b|r [v0|]|r [v0|]]; cbn in Hv, Hs; [contradiction| | contradiction | |contradiction];
            destruct Hv as [<-|[]]; intuition).
          pose proof (w_lt _ _ _ HW _ (world_sub _ _ _ _ _ HW Sr (proj2 Ho))). lia.
        - exact Ho. }
      destruct Hrg1 as [Hrg1 Hnd1].
      assert (K2 : k1 <= k2) by (eapply (proj1 (parts_in nsq S1 cs ar1 jr1 k1 ps ar2 jr2 k2 W1 ltac:(eapply Forall_impl; [|exact HS']; intros d []; auto) HP))).
      split; [|split; [|split; [|split; [|split; [|split]]]]].
      + constructor; [eapply slot_app_l; eauto|]. revert R1 R2 K1 Hsl. clear. intros R1 R2 K1 Hsl.
        induction Hsl; constructor; auto. eapply slot_app_r; eauto.
      + cbn [flat_map]. rewrite Hr, Hrs. pose proof (pr_ar _ _ _ _ _ R1). pose proof (pr_ar _ _ _ _ _ R2).
        replace (ar2 - ar) with ((ar1 - ar) + (ar2 - ar1)) by lia. rewrite seq_app. f_equal. f_equal. lia.
      + cbn [flat_map]. rewrite Hf, Hfs. pose proof (pr_jr _ _ _ _ _ R1). pose proof (pr_jr _ _ _ _ _ R2).
        replace (jr2 - jr) with ((jr1 - jr) + (jr2 - jr1)) by lia. rewrite seq_app. f_equal. f_equal. lia.
      + unfold cstd_app. cbnc. cbn [combine flat_map]. rewrite Hbu, Hbl, Hbus, Hbls. split; reflexivity.
      + intros v. rewrite prop_keys_app, in_app_iff, Hbk, Hbks. cbn [flat_map]. rewrite in_app_iff. split.
        * intros [[Ho|Ho]|[(d & Hd & Ho)|Ho]]; auto; left; [exists c|exists d]; cbn; auto.
        * intros [(d & [<-|Hd] & Ho)|[Ho|Ho]]; eauto 6.
      + cbn [flat_map]. revert Hnd1 Hrg1. generalize (slack_of s) as l. rewrite Forall_forall in Hrg.
        induction l as [|v l IHl]; intros Hnd1 Hrg1; cbn; [exact Hnd|].
        inversion Hnd1; inversion Hrg1; subst. constructor; [|apply IHl; auto].
        intros Hin. apply in_app_or in Hin as [Hin|Hin]; [contradiction|]. apply Hrg in Hin. lia.
      + cbn [flat_map]. apply Forall_app. split; (eapply Forall_impl; [|eassumption]); cbn; intros; lia.
  Qed.
End Slots.
