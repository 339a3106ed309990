(** Gradient and Hessian components are the partial derivatives. *)
From Verif Require Import Base Num Node NodeDiff NodeStd NodeInd World Fresh MapProofs EvalProofs
     StdPropProofs PathProofs DerivProofs DiffSpec DiffProofs PanicProofs GradProofs HessProofs.
From Coq Require Import Reals Lra.

Section W.
  Context {T : Type} `{Num T} `{HashOrd}.
  Lemma world_le nsq k k' (S : node T -> Prop) : k <= k' -> world nsq k S -> world nsq k' S.
  Proof.
    intros Hk [H1 H2 H3 H4]. constructor; auto. intros n Hn. specialize (H2 n Hn). lia.
  Qed.

  Lemma sub_trans (a b c : node T) : sub a b -> sub b c -> sub a c.
  Proof. intros Ha Hb; induction Hb; auto. eapply sub_arg; eauto. Qed.

  Lemma world_restrict nsq k (S : node T -> Prop) n :
    world nsq k S -> S n -> no_self_division n -> world true k (fun x => sub x n).
  Proof.
    intros HW Hn Hd. pose proof (fun x => world_sub nsq k S n x HW Hn) as HS. constructor.
    - intros x c Hx Hc. eapply sub_trans; [|exact Hx]. eapply sub_arg; [exact Hc|constructor].
    - intros x Hx. eapply w_lt; eauto.
    - intros x y Hx Hy E. eapply w_coh; eauto.
    - intros x Hx. pose proof (w_shape _ _ _ HW x (HS x Hx)) as Sh.
      destruct x as [| | | |i a b| |]; cbn in *; auto. destruct Sh as (S1 & S2 & _). repeat split; auto. intros _ E.
      specialize (Hd _ _ _ Hx).
      assert (a = b).
      { eapply w_coh; [exact HW| | |exact E].
        - exact (w_closed _ _ _ HW _ a (HS _ Hx) (or_introl eq_refl)).
        - exact (w_closed _ _ _ HW _ b (HS _ Hx) (or_intror (or_introl eq_refl))). }
      subst b. rewrite ptr_eq_refl in Hd. discriminate.
  Qed.

  Lemma std_vars nsq k (S : node T -> Prop) t (n : node T) :
    world nsq k S -> S n ->
    NoDup (map fst (ord 3 t (p_a (std_properties n)))) /\
    forall v, In v (map fst (ord 3 t (p_a (std_properties n)))) <-> occurs v n.
  Proof.
    intros HW Hn. destruct (keys_are_vars nsq k S n HW Hn) as [H1 H2].
    pose proof (Permutation_map fst (ord_perm _ 3 t (p_a (std_properties n)))) as HP. split.
    - eapply Permutation_NoDup; [apply Permutation_sym; exact HP|exact H1].
    - intros v. rewrite <- H2. split; apply Permutation_in; auto. apply Permutation_sym; auto.
  Qed.
End W.

Lemma pairs_in {A} (l : list A) a b : In (a, b) (pairs l) -> In a l /\ In b l.
Proof.
  induction l as [|x l IH]; [intros []|]. cbn [pairs]. rewrite in_app_iff, in_map_iff.
  intros [(y & E & Hy)|Hin].
  - inversion E; subst. split; [cbn; auto|exact Hy].
  - destruct (IH Hin); cbn; auto.
Qed.
Lemma pairs_all {A} (l : list A) a b : In a l -> In b l -> In (a, b) (pairs l) \/ In (b, a) (pairs l).
Proof.
  induction l as [|x l IH]; [intros []|]. cbn [pairs]. intros Ha Hb. rewrite !in_app_iff, !in_map_iff.
  destruct Ha as [<-|Ha]; [left; left; exists b; auto|].
  destruct Hb as [<-|Hb]; [right; left; exists a; split; [auto|right; exact Ha]|].
  destruct (IH Ha Hb); auto.
Qed.
(** At most one of [(a, b)] and [(b, a)], once. *)
Lemma pairs_nodup {A} (l : list A) : NoDup l -> NoDup (pairs l).
Proof.
  induction 1 as [|x l Hx Hn IH]; cbn [pairs]; [constructor|].
  apply NoDup_app_intro; auto.
  - apply FinFun.Injective_map_NoDup; [intros a b E; inversion E; auto|]. constructor; auto.
  - intros [a b] H1 H2. apply in_map_iff in H1 as (y & E & _). inversion E; subst.
    apply pairs_in in H2 as [H2 _]. auto.
Qed.
Lemma pairs_asym {A} (l : list A) a b : NoDup l -> In (a, b) (pairs l) -> In (b, a) (pairs l) -> a = b.
Proof.
  induction 1 as [|x l Hx Hn IH]; cbn [pairs]; [intros []|].
  rewrite !in_app_iff, !in_map_iff. intros [(y & E & Hy)|H1] [(z & F & Hz)|H2]; auto.
  - inversion E; inversion F; subst; auto.
  - inversion E; subst. apply pairs_in in H2 as [_ H2]. contradiction.
  - inversion F; subst. apply pairs_in in H1 as [_ H1]. contradiction.
Qed.

Lemma nz_entries_nodup {T} `{Num T} (ps : list (node T * node T)) dds :
  NoDup ps -> NoDup (map fst (flat_map nz_entry (combine ps dds))).
Proof.
  intros Hn; revert dds; induction Hn as [|p ps Hp Hn IH]; intros [|d dds]; cbn; try constructor.
  unfold nz_entry at 1. cbn [snd]. destruct (is_constant_with_value d n0); cbn; [apply IH|].
  constructor; [|apply IH]. intros Hin. apply Hp.
  apply in_map_iff in Hin as ([q e] & <- & Hin). apply in_flat_map in Hin as ([q' e'] & H1 & H2).
  unfold nz_entry in H2. destruct (is_constant_with_value _ _); [destruct H2|].
  destruct H2 as [E|[]]. inversion E; subst. cbn. eapply in_combine_l; eauto.
Qed.

Lemma Forall2_in_combine {A B} (P : A -> B -> Prop) l m a b :
  Forall2 P l m -> In (a, b) (combine l m) -> P a b.
Proof.
  induction 1 as [|x y l m Hxy HF IH]; cbn; [intros []|].
  intros [E|Hin]; [inversion E; subst; auto|auto].
Qed.
Lemma Forall2_in_ex {A B} (P : A -> B -> Prop) l m a :
  Forall2 P l m -> In a l -> exists b, In (a, b) (combine l m) /\ P a b.
Proof.
  induction 1 as [|x y l m Hxy HF IH]; cbn; [intros []|].
  intros [->|Hin]; [eauto|]. destruct (IH Hin) as (b & H1 & H2). eauto.
Qed.

Local Open Scope R_scope.

(** *** Affine expressions. *)
Definition xr (x : X) : R := match x with Some r => r | None => 0 end.
(** Coefficient of [v]. *)
Definition coef (v : nodeX) (a : list (nodeX * X)) : R :=
  Rsum (map (fun kv => if ptr_eq (fst kv) v then xr (snd kv) else 0) a).

Lemma coef_in v c a : nodupk ptr_eq (map fst a) -> In (v, c) a -> coef v a = xr c.
Proof.
  unfold coef. induction a as [|[w d] a IH]; [intros _ []|]. cbn [map fst snd Rsum nodupk].
  intros [H1 H2] [E|Hin].
  - inversion E; subst. rewrite ptr_eq_refl.
    enough (Rsum (map (fun kv : nodeX * X => if ptr_eq (fst kv) v then xr (snd kv) else 0) a) = 0) by lra.
    clear -H1. induction a as [|[w d] a IH]; cbn in *; auto. apply orb_false_iff in H1 as [H1 H2].
    rewrite ptr_eq_sym, H1, IH; auto. lra.
  - rewrite IH; auto. destruct (ptr_eq w v) eqn:E; [|lra]. exfalso.
    rewrite <- not_true_iff_false in H1. apply H1. apply existsb_exists. exists v.
    split; [apply (in_map fst) in Hin; exact Hin|exact E].
Qed.
Lemma coef_absent v a : (forall w, In w (map fst a) -> ptr_eq w v = false) -> coef v a = 0.
Proof.
  unfold coef. induction a as [|[w d] a IH]; cbn; auto. intros G. rewrite G by auto.
  rewrite IH; [lra|auto].
Qed.

Lemma lin_deriv (vs : valsX) (v : nodeX) x0 a z :
  Forall (fun kv => is_var (fst kv) = true) a ->
  is_var v = true -> evaluate vs v = Some x0 -> lin vs a = Some z ->
  has_derivative (fun t => lin (upd vs v t) a) x0 (coef v a).
Proof.
  intros Ha Hv E Hz. unfold lin.
  apply (hd_xsum (fun kv t => x2 Rmult (snd kv) (evaluate (upd vs v t) (fst kv))) a x0
                 (fun kv => if ptr_eq (fst kv) v then xr (snd kv) else 0)).
  intros [w c] Hin. cbn [fst snd]. apply xsum_some in Hz. rewrite Forall_forall in Hz, Ha.
  specialize (Ha _ Hin). cbn in Ha.
  destruct (Hz (x2 Rmult c (evaluate vs w))) as [r Hr].
  { apply in_map_iff. exists (w, c). auto. }
  destruct c as [c|]; [|discriminate]. destruct (evaluate vs w) as [y|] eqn:Ew; [|discriminate]. cbn [xr].
  destruct (ptr_eq w v) eqn:Ewv.
  - eapply hd_eq; [|eapply (hd_mult (fun _ => Some c) (fun t => evaluate (upd vs v t) w) x0 0 1 c x0)].
    + lra.
    + reflexivity.
    + apply evaluate_upd_same; auto.
    + apply hd_const.
    + eapply hd_ext; [|apply hd_id]. intros t; symmetry; apply evaluate_upd_same; auto.
  - eapply hd_ext; [|apply (hd_const (c * y))]. intros t. rewrite evaluate_upd_other, Ew; auto.
Qed.

Lemma affine_partial nsq k S (vs : valsX) (n v : nodeX) x0 z :
  world nsq k S -> S n -> p_affine (std_properties n) = true ->
  is_var v = true -> evaluate vs v = Some x0 -> evaluate vs n = Some z ->
  has_partial n vs v (coef v (p_a (std_properties n))).
Proof.
  intros HW Hn Ha Hv E Hz. exists x0. split; [exact E|].
  rewrite (affine_value nsq k S vs n HW Hn Ha) in Hz.
  destruct (lin vs (p_a (std_properties n))) as [zl|] eqn:El; [|discriminate].
  destruct (p_b (std_properties n)) as [zb|] eqn:Eb; [|discriminate].
  eapply hd_ext; [intros t; symmetry; apply (affine_value nsq k S _ n HW Hn Ha)|].
  rewrite Eb. eapply hd_eq; [|apply hd_plus; [|apply hd_const]].
  2:{ eapply lin_deriv; eauto. apply keys_var. }
  lra.
Qed.

Lemma affine_defined nsq k S (vs : valsX) (n v : nodeX) t z :
  world nsq k S -> S n -> p_affine (std_properties n) = true ->
  evaluate vs n = Some z -> exists z', evaluate (upd vs v t) n = Some z'.
Proof.
  intros HW Hn Ha Hz. rewrite (affine_value nsq k S vs n HW Hn Ha) in Hz.
  rewrite (affine_value nsq k S _ n HW Hn Ha).
  destruct (lin vs (p_a (std_properties n))) as [zl|] eqn:El; [|discriminate].
  destruct (p_b (std_properties n)) as [zb|] eqn:Eb; [|discriminate].
  enough (exists y, lin (upd vs v t) (p_a (std_properties n)) = Some y) as [y ->] by (cbn; eauto).
  pose proof (keys_var n) as Hk. clear Hz Ha. revert zl El Hk. clear. unfold lin.
  induction (p_a (std_properties n)) as [|[w c] a IH]; intros zl El Hk; [exists 0; reflexivity|].
  cbn [map] in *. rewrite xsum_cons in *. inversion Hk as [|? ? Hw Hk']; subst. cbn [fst snd] in *.
  match type of El with x2 _ _ ?s = _ => destruct s as [s0|] end; [|rewrite x2_none_r in El; discriminate].
  destruct (IH s0 eq_refl Hk') as [y ->].
  destruct c as [c|]; [|discriminate]. destruct (evaluate vs w) as [u|] eqn:Ew; [|discriminate].
  destruct (upd_defined vs v w t u Hw Ew) as [u' ->]. cbn. eauto.
Qed.

Lemma affine_second nsq k S (vs : valsX) (n v1 v2 : nodeX) x1 x2 z :
  world nsq k S -> S n -> p_affine (std_properties n) = true ->
  is_var v1 = true -> is_var v2 = true ->
  evaluate vs v1 = Some x1 -> evaluate vs v2 = Some x2 -> evaluate vs n = Some z ->
  has_second_partial n vs v1 v2 0.
Proof.
  intros HW Hn Ha H1 H2 E1 E2 Hz.
  exists x2, (mkposreal 1 Rlt_0_1), (fun _ => coef v1 (p_a (std_properties n))).
  split; [exact E2|]. split; [|apply derivable_pt_lim_const].
  intros t _. destruct (upd_defined vs v2 v1 t x1 H1 E1) as [y Hy].
  destruct (affine_defined nsq k S vs n v2 t z HW Hn Ha Hz) as [z' Hz'].
  eapply affine_partial; eauto.
Qed.

(** *** Variables that do not occur. *)
Lemma Dv_absent vs (v n : nodeX) : (forall w, occurs w n -> ptr_eq w v = false) -> Dv vs v n = 0.
Proof. intros Hno. unfold Dv. rewrite rpaths_absent; auto. Qed.

Lemma D2_absent vs (v1 v2 n : nodeX) : (forall w, occurs w n -> ptr_eq w v1 = false) -> D2 vs v1 v2 n = 0.
Proof.
  assert (Harg : forall (m c : nodeX), (forall w, occurs w m -> ptr_eq w v1 = false) -> In c (arguments m) ->
            forall w, occurs w c -> ptr_eq w v1 = false).
  { intros m c Hm Hc w [Hw Hs]. apply Hm. split; auto. eapply sub_arg; eauto. }
  induction n as [i w|i st kd|i args IH|i a IHa|i a b IHa IHb|i a b IHa IHb|i a IHa] using node_ind';
    intros Hno; cbn [D2]; auto.
  - rewrite Forall_forall in IH.
    enough (G : forall l, (forall c, In c l -> In c args) -> Rsum (map (D2 vs v1 v2) l) = 0) by (apply G; auto).
    induction l as [|c l IHl]; intros Hl; cbn; auto.
    rewrite (IH c), IHl; [lra| | |]; auto.
    + intros; apply Hl; cbn; auto.
    + apply Hl; cbn; auto.
    + apply (Harg (NAdd i args)); auto. apply Hl; cbn; auto.
  - rewrite IHa by (apply (Harg _ a Hno); cbn; auto).
    rewrite (Dv_absent vs v1 a) by (apply (Harg _ a Hno); cbn; auto). lra.
  - rewrite IHa by (apply (Harg _ a Hno); cbn; auto).
    rewrite IHb by (apply (Harg _ b Hno); cbn; auto).
    rewrite (Dv_absent vs v1 a) by (apply (Harg _ a Hno); cbn; auto).
    rewrite (Dv_absent vs v1 b) by (apply (Harg _ b Hno); cbn; auto). unfold Rdiv. lra.
  - rewrite IHa by (apply (Harg _ a Hno); cbn; auto).
    rewrite IHb by (apply (Harg _ b Hno); cbn; auto).
    rewrite (Dv_absent vs v1 a) by (apply (Harg _ a Hno); cbn; auto).
    rewrite (Dv_absent vs v1 b) by (apply (Harg _ b Hno); cbn; auto). lra.
  - rewrite IHa by (apply (Harg _ a Hno); cbn; auto).
    rewrite (Dv_absent vs v1 a) by (apply (Harg _ a Hno); cbn; auto). lra.
Qed.

(** *** The components. *)
Section Comp.
  Context `{HashOrd}.

  Lemma dd_val k S (self v1 v2 dd : nodeX) (vs : valsX) x1 x2 z :
    world true k S -> S self -> is_var v1 = true -> is_var v2 = true ->
    dd_of k self (v1, v2) dd ->
    evaluate vs v1 = Some x1 -> evaluate vs v2 = Some x2 -> evaluate vs self = Some z ->
    evaluate vs dd = Some (D2 vs v1 v2 self).
  Proof.
    intros HW Hs H1 H2 (d & k1 & k2 & k3 & k4 & Hk & _ & P1 & P2) E1 E2 Hz. cbn [fst snd] in *.
    destruct (path_sum_grows true k1 S (rpaths v1 self) (world_le _ _ _ _ Hk HW)
                (rpaths_world true k S v1 self HW Hs) _ _ P1) as (_ & S' & _ & HW' & Sd).
    exact (second_derivative_val k k2 S S' vs self v1 v2 d dd _ _ _ _ x1 x2 z
             HW Hs HW' Sd H1 H2 P1 P2 E1 E2 Hz).
  Qed.

  Theorem gphi_correct k S (self : nodeX) sc k' :
    world true k S -> S self -> std_components self k = Ok (sc, k') ->
    NoDup (map fst (sc_gphi sc)) /\
    (forall v, In v (map fst (sc_gphi sc)) <-> occurs v self) /\
    forall v d (vs : valsX) z, In (v, d) (sc_gphi sc) -> evaluate vs self = Some z ->
      exists l, evaluate vs d = Some l /\ has_partial self vs v l.
  Proof.
    intros HW Hs E. apply std_components_ok in E as (_ & _ & _ & Hv & E).
    destruct (std_vars true k S k self HW Hs) as [Hnd Hocc]. rewrite Hv.
    split; [exact Hnd|]. split; [exact Hocc|].
    intros v d vs z Hin Hz.
    assert (Ho : occurs v self).
    { apply Hocc. rewrite <- Hv. apply (in_map fst) in Hin. exact Hin. }
    destruct (evaluate_sub vs self v z (proj2 Ho) Hz) as [x0 Hx0].
    destruct (p_affine (std_properties self)) eqn:Ha.
    - destruct E as [E _].
      assert (G : exists c i, In (v, c) (p_a (std_properties self)) /\ d = NConst i c).
      { revert Hin. assert (HP := ord_perm _ 3 k (p_a (std_properties self))).
        assert (Hsub : forall e, In e (ord 3 k (p_a (std_properties self))) -> In e (p_a (std_properties self)))
          by (intros; eapply Permutation_in; eauto).
        revert Hsub E. clear. generalize (ord 3 k (p_a (std_properties self))) as L, (sc_gphi sc) as G.
        intros L G Hsub HF. induction HF as [|[v' d'] [w c] G L [E1 [i E2]] HF IH]; [intros []|].
        cbn in E1, E2. subst. intros [E|Hin].
        - inversion E; subst. exists c, i. split; auto. apply Hsub; cbn; auto.
        - apply IH; auto. intros; apply Hsub; cbn; auto. }
      destruct G as (c & i & Hc & ->).
      pose proof (affine_partial true k S vs self v x0 z HW Hs Ha (proj1 Ho) Hx0 Hz) as HP.
      rewrite (coef_in v c) in HP; auto using keys_nodup.
      exists (xr c). split; [|exact HP]. cbn [evaluate].
      destruct c as [c|]; [reflexivity|]. exfalso.
      rewrite (affine_value true k S vs self HW Hs Ha) in Hz.
      destruct (lin vs (p_a (std_properties self))) as [zl|] eqn:El; [|discriminate].
      unfold lin in El. apply xsum_some in El. rewrite Forall_forall in El.
      destruct (El (x2 Rmult None (evaluate vs v))) as [r Hr]; [|discriminate].
      apply in_map_iff. exists (v, None). auto.
    - destruct E as [E _]. rewrite Forall_forall in E. destruct (E _ Hin) as (k1 & k2 & _ & P).
      cbn [fst snd] in P. exists (Dv vs v self). split; [eapply path_sum_Dv; eauto|].
      exists x0. split; auto. eapply Dv_correct; eauto. apply Ho.
  Qed.

  Lemma nz_entry_in (ps : list (nodeX * nodeX)) dds p dd :
    In (p, dd) (flat_map nz_entry (combine ps dds)) <->
    In (p, dd) (combine ps dds) /\ is_constant_with_value dd n0 = false.
  Proof.
    rewrite in_flat_map. split.
    - intros ([q e] & H1 & H2). unfold nz_entry in H2. cbn [snd] in H2.
      destruct (is_constant_with_value e n0) eqn:Ez; [destruct H2|].
      destruct H2 as [E|[]]. inversion E; subst. auto.
    - intros [H1 H2]. exists (p, dd). split; auto. unfold nz_entry. cbn [snd]. rewrite H2. cbn; auto.
  Qed.

  Theorem hphi_correct k S (self : nodeX) sc k' :
    world true k S -> S self -> std_components self k = Ok (sc, k') ->
    NoDup (map fst (sc_hphi sc)) /\
    (forall v1 v2, In (v1, v2) (map fst (sc_hphi sc)) -> In (v2, v1) (map fst (sc_hphi sc)) -> v1 = v2) /\
    (forall v1 v2 dd (vs : valsX) z, In (v1, v2, dd) (sc_hphi sc) -> evaluate vs self = Some z ->
       occurs v1 self /\ occurs v2 self /\
       exists l, evaluate vs dd = Some l /\ has_second_partial self vs v1 v2 l /\
                 has_second_partial self vs v2 v1 l) /\
    (forall v1 v2 (vs : valsX) x1 x2 z,
       is_var v1 = true -> is_var v2 = true ->
       evaluate vs v1 = Some x1 -> evaluate vs v2 = Some x2 -> evaluate vs self = Some z ->
       ~ In (v1, v2) (map fst (sc_hphi sc)) -> ~ In (v2, v1) (map fst (sc_hphi sc)) ->
       occurs v1 self -> occurs v2 self ->
       has_second_partial self vs v1 v2 0).
  Proof.
    intros HW Hs E. apply std_components_ok in E as (_ & _ & _ & Hv & E).
    destruct (std_vars true k S k self HW Hs) as [Hnd Hocc].
    destruct (p_affine (std_properties self)) eqn:Ha.
    - destruct E as [_ ->]. cbn. split; [constructor|]. split; [tauto|]. split; [tauto|].
      intros. eapply affine_second; eauto.
    - destruct E as (_ & dds & Hlen & HF & ->).
      assert (Hinp : forall p, In p (map fst (flat_map nz_entry (combine
                 (pairs (map fst (ord 3 k (p_a (std_properties self))))) dds))) ->
                 In p (pairs (map fst (ord 3 k (p_a (std_properties self)))))).
      { intros p Hp. apply in_map_iff in Hp as ([q e] & <- & Hp). cbn [fst].
        apply nz_entry_in in Hp as [Hp _]. eapply in_combine_l; eauto. }
      split; [apply nz_entries_nodup, pairs_nodup; auto|]. split.
      { intros v1 v2 H1 H2. apply Hinp in H1. apply Hinp in H2. eapply pairs_asym; eauto. }
      split.
      + intros v1 v2 dd vs z Hin Hz. apply nz_entry_in in Hin as [Hin _].
        pose proof (Forall2_in_combine _ _ _ _ _ HF Hin) as Hdd.
        apply in_combine_l in Hin. apply pairs_in in Hin as [I1 I2].
        apply Hocc in I1. apply Hocc in I2.
        destruct (evaluate_sub vs self v1 z (proj2 I1) Hz) as [y1 Y1].
        destruct (evaluate_sub vs self v2 z (proj2 I2) Hz) as [y2 Y2].
        split; auto. split; auto. exists (D2 vs v1 v2 self).
        split; [exact (dd_val k S self v1 v2 dd vs y1 y2 z HW Hs (proj1 I1) (proj1 I2) Hdd Y1 Y2 Hz)|]. split.
        * eapply D2_second_partial; eauto; [apply I1|apply I2].
        * rewrite D2_sym. eapply D2_second_partial; eauto; [apply I2|apply I1].
      + intros v1 v2 vs y1 y2 z V1 V2 Y1 Y2 Hz N1 N2 O1 O2.
        assert (Hz0 : D2 vs v1 v2 self = 0).
        { apply Hocc in O1. apply Hocc in O2.
          destruct (pairs_all _ v1 v2 O1 O2) as [Hp|Hp].
          - destruct (Forall2_in_ex _ _ _ _ HF Hp) as (dd & Hc & Hdd).
            destruct (is_constant_with_value dd n0) eqn:Ez.
            + apply (const_value vs) in Ez.
              rewrite (dd_val k S self v1 v2 dd vs y1 y2 z HW Hs V1 V2 Hdd Y1 Y2 Hz) in Ez. congruence.
            + exfalso. apply N1. apply in_map_iff. exists (v1, v2, dd). split; auto. apply nz_entry_in; auto.
          - destruct (Forall2_in_ex _ _ _ _ HF Hp) as (dd & Hc & Hdd).
            destruct (is_constant_with_value dd n0) eqn:Ez.
            + apply (const_value vs) in Ez.
              rewrite (dd_val k S self v2 v1 dd vs y2 y1 z HW Hs V2 V1 Hdd Y2 Y1 Hz) in Ez.
              rewrite D2_sym. congruence.
            + exfalso. apply N2. apply in_map_iff. exists (v2, v1, dd). split; auto. apply nz_entry_in; auto. }
        rewrite <- Hz0. eapply D2_second_partial; eauto.
  Qed.

  (** Variables that do not occur have no influence. *)
  Theorem second_partial_absent k S (self v1 v2 : nodeX) (vs : valsX) x1 x2 z :
    world true k S -> S self -> is_var v1 = true -> is_var v2 = true ->
    evaluate vs v1 = Some x1 -> evaluate vs v2 = Some x2 -> evaluate vs self = Some z ->
    (forall w, occurs w self -> ptr_eq w v1 = false) \/ (forall w, occurs w self -> ptr_eq w v2 = false) ->
    has_second_partial self vs v1 v2 0.
  Proof.
    intros HW Hs V1 V2 Y1 Y2 Hz Hno.
    assert (Hz0 : D2 vs v1 v2 self = 0).
    { destruct Hno as [Hno|Hno]; [|rewrite D2_sym]; apply D2_absent; auto. }
    rewrite <- Hz0. eapply D2_second_partial; eauto.
  Qed.
End Comp.
