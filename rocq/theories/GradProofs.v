(** Gradient and Hessian components. *)
From Verif Require Import Base Num Node NodeDiff NodeStd NodeInd World Fresh MapProofs EvalProofs
     StdPropProofs PathProofs DerivProofs DiffSpec DiffProofs PanicProofs.
From Coq Require Import Reals Lra.

(** All pairs [(v_i, v_j)], [i <= j], row by row. *)
Fixpoint pairs {A} (l : list A) : list (A * A) :=
  match l with
  | [] => []
  | a :: l' => map (pair a) (a :: l') ++ pairs l'
  end.

Lemma Forall2_in_l {A B} (P Q : A -> B -> Prop) l m :
  Forall2 P l m -> (forall a b, In a l -> P a b -> Q a b) -> Forall2 Q l m.
Proof. induction 1; intros HQ; constructor; [apply HQ; cbn; auto|apply IHForall2; intros; apply HQ; cbn; auto]. Qed.
Lemma Forall2_map_l {A B C} (f : C -> A) (P : A -> B -> Prop) l m :
  Forall2 (fun c b => P (f c) b) l m -> Forall2 P (map f l) m.
Proof. induction 1; cbn; constructor; auto. Qed.

Section Grad.
  Context {T : Type} `{Num T} `{HashOrd}.

  Definition nz_entry (e : (node T * node T) * node T) : list (node T * node T * node T) :=
    if is_constant_with_value (snd e) n0 then [] else [e].

  (** [dd] is a second derivative node: the path sum to [v2] of the path sum to [v1]. *)
  Definition dd_of (k0 : nat) (self : node T) (p : node T * node T) (dd : node T) : Prop :=
    exists d k1 k2 k3 k4, k0 <= k1 /\ k2 <= k3 /\ path_sum (rpaths (fst p) self) k1 = Ok (d, k2) /\
                          path_sum (rpaths (snd p) d) k3 = Ok (dd, k4).

  Lemma hess_entries_ok v1 (dds : list (node T * node T)) dvars h :
    hess_entries v1 dds dvars = Ok h ->
    exists l, length l = length dvars /\
      Forall2 (fun v2 dd => hget ptr_eq v2 dds = Some dd) dvars l /\
      h = flat_map nz_entry (combine (map (pair v1) dvars) l).
  Proof.
    revert h; induction dvars as [|v2 dvars IH]; intros h E; cbn in E.
    - inversion E; subst. exists []; auto.
    - apply rbind_ok in E as (dd & E1 & E). apply rbind_ok in E as (h' & E2 & E).
      inversion E; subst; clear E. destruct (IH _ E2) as (l & Hl & HF & ->).
      unfold unwrap in E1. destruct (hget ptr_eq v2 dds) as [dd'|] eqn:G; inversion E1; subst.
      exists (dd :: l). cbn. split; [auto|]. split; [constructor; auto|].
      change (nz_entry (v1, v2, dd)) with (if is_constant_with_value dd n0 then [] else [(v1, v2, dd)]).
      destruct (is_constant_with_value dd n0); reflexivity.
  Qed.

  Lemma smem_in (v : node T) l : In v l -> smem ptr_eq v l = true.
  Proof. intros Hv. apply existsb_exists. exists v. split; [auto|apply ptr_eq_refl]. Qed.

  Lemma flat_map_combine_app {A B C} (f : A * B -> list C) l1 l2 m1 m2 :
    length l1 = length m1 ->
    flat_map f (combine (l1 ++ l2) (m1 ++ m2)) = flat_map f (combine l1 m1) ++ flat_map f (combine l2 m2).
  Proof.
    revert m1; induction l1 as [|a l1 IH]; destruct m1 as [|b m1]; intros E; try discriminate; cbn; auto.
    rewrite IH, app_assoc; auto.
  Qed.

  Lemma grad_hess_ok k0 self derivs vars k g h k' :
    (forall v, In v vars -> exists d k1 k2, hget ptr_eq v derivs = Some d /\ k0 <= k1 /\ k2 <= k /\
                                          path_sum (rpaths v self) k1 = Ok (d, k2)) ->
    grad_hess derivs vars k = Ok ((g, h), k') ->
    k <= k' /\ map fst g = vars /\ Forall (fun vd => hget ptr_eq (fst vd) derivs = Some (snd vd)) g /\
    exists dds, length dds = length (pairs vars) /\ Forall2 (dd_of k0 self) (pairs vars) dds /\
                h = flat_map nz_entry (combine (pairs vars) dds).
  Proof.
    revert k g h k'; induction vars as [|v1 vars IH]; intros k g h k' Hd E.
    - inversion E; subst. split; [lia|]. split; [auto|]. split; [constructor|]. exists []; cbn; auto.
    - cbn [grad_hess] in E. apply bind_ok in E as (d & k1 & E1 & E). apply lift_ok in E1 as [E1 ->].
      apply bind_ok in E as (dds & k2 & E2 & E). apply bind_ok in E as (hs & k3 & E3 & E).
      apply lift_ok in E3 as [E3 ->]. apply bind_ok in E as ([g' h'] & k4 & E4 & E).
      inversion E; subst; clear E.
      destruct (Hd v1) as (d' & kk1 & kk2 & Hg & Hkk1 & Hkk2 & Hp); [cbn; auto|].
      rewrite Hg in E1. inversion E1; subst d'. clear E1.
      apply derivatives_ok in E2 as (_ & Hk2 & _ & Hdd).
      apply IH in E4 as (Hk4 & Hg1 & Hg2 & dl & Hlen & HF & ->).
      2:{ intros v Hv. destruct (Hd v) as (d2 & a1 & a2 & G1 & G2 & G3 & G4); [cbn; auto|].
          exists d2, a1, a2. repeat split; auto; lia. }
      apply hess_entries_ok in E3 as (l & Hl & HFl & ->).
      split; [lia|]. cbn [fst snd map]. split; [congruence|]. split; [constructor; auto|].
      exists (l ++ dl). cbn [pairs]. split; [rewrite !app_length, map_length; congruence|].
      split.
      + apply Forall2_app; auto.
        apply Forall2_map_l. eapply Forall2_in_l; [exact HFl|]. intros v2 dd Hin G.
        destruct (Hdd v2) as (dd' & q1 & q2 & G' & P & Q & _); [apply smem_in; auto|].
        rewrite G in G'. inversion G'; subst dd'. exists d, kk1, kk2, q1, q2. repeat split; auto; lia.
      + rewrite flat_map_combine_app; auto. rewrite map_length; auto.
  Qed.

  Lemma keys_vars (n : node T) : forallb is_var (map fst (p_a (std_properties n))) = true.
  Proof.
    apply forallb_forall. intros v Hv. apply (keys_occur n v) in Hv. apply Hv.
  Qed.

  (** What [std_components] returns. *)
  Theorem std_components_ok (self : node T) k sc k' :
    std_components self k = Ok (sc, k') ->
    let prop := std_properties self in
    let vars := map fst (ord 3 k (p_a prop)) in
    k <= k' /\ sc_phi sc = self /\ sc_prop sc = prop /\ map fst (sc_gphi sc) = vars /\
    if p_affine prop then
      Forall2 (fun vd kv => fst vd = fst kv /\ exists i, snd vd = NConst i (snd kv))
              (sc_gphi sc) (ord 3 k (p_a prop)) /\
      sc_hphi sc = []
    else
      Forall (fun vd => exists k1 k2, k <= k1 /\ path_sum (rpaths (fst vd) self) k1 = Ok (snd vd, k2)) (sc_gphi sc) /\
      exists dds, length dds = length (pairs vars) /\ Forall2 (dd_of k self) (pairs vars) dds /\
                  sc_hphi sc = flat_map nz_entry (combine (pairs vars) dds).
  Proof.
    intros E prop vars. unfold std_components in E. apply bind_ok in E as (t & k0 & Et & E).
    inversion Et; subst t k0. fold prop in E. destruct (p_affine prop).
    - apply bind_ok in E as (g & k1 & E1 & E2). inversion E2; subst; clear E2. cbn.
      unfold vars. revert E1. generalize (ord 3 k (p_a prop)) as L. intros L E1.
      enough (G : k <= k' /\ map fst g = map fst L /\
                  Forall2 (fun vd kv => fst vd = fst kv /\ exists i, snd vd = NConst i (snd kv)) g L) by tauto.
      clear -E1. revert k g k' E1. induction L as [|[v c] L IH]; intros k g k' E.
      + inversion E; subst. repeat split; auto.
      + apply mapM_cons_ok in E as (b & bs & k1 & E1 & E2 & ->).
        apply bind_ok in E1 as (cc & k2 & E1 & E3). inversion E1; subst. inversion E3; subst.
        apply IH in E2 as (H1 & H2 & H3). cbn. split; [lia|]. split; [congruence|].
        constructor; [split; [reflexivity|eexists; reflexivity]|exact H3].
    - apply bind_ok in E as (derivs & k1 & E1 & E). apply bind_ok in E as ([g h] & k2 & E2 & E).
      inversion E; subst; clear E. cbn [fst snd sc_phi sc_gphi sc_hphi sc_prop].
      apply derivatives_ok in E1 as (_ & Hk & _ & Hd). fold vars in Hd, E2.
      apply (grad_hess_ok k self) in E2 as (Hk2 & Hg1 & Hg2 & dds & H1 & H2 & H3).
      + split; [lia|]. split; [reflexivity|]. split; [reflexivity|]. split; [exact Hg1|].
        split; [|exists dds; split; [exact H1|split; [exact H2|exact H3]]].
        apply Forall_forall. intros [v d] Hin. cbn.
        rewrite Forall_forall in Hg2. specialize (Hg2 _ Hin). cbn in Hg2.
        destruct (Hd v) as (d' & q1 & q2 & G & P & Q & _).
        { apply smem_in. rewrite <- Hg1. apply (in_map fst) in Hin. exact Hin. }
        rewrite Hg2 in G. inversion G; subst. exists q1, q2. split; [exact Q|exact P].
      + intros v Hv. destruct (Hd v) as (d & q1 & q2 & G & P & Q1 & Q2 & Q3); [apply smem_in; auto|].
        exists d, q1, q2. repeat split; auto.
  Qed.

  Lemma hget_in_snd (v d : node T) ds : hget ptr_eq v ds = Some d -> In d (map snd ds).
  Proof.
    induction ds as [|[w e] ds IH]; cbn; [discriminate|].
    destruct (ptr_eq v w); intros E; [inversion E; auto|auto].
  Qed.

  (** The components live in a larger world. *)
  Definition comps_here (sc : std_comp T) (S : node T -> Prop) : Prop :=
    S (sc_phi sc) /\ Forall (fun vd => S (snd vd)) (sc_gphi sc) /\
    Forall (fun e => S (snd e)) (sc_hphi sc).

  Lemma hess_entries_here v1 (dds : list (node T * node T)) dvars h (S : node T -> Prop) :
    Forall (fun kv => S (snd kv)) dds ->
    hess_entries v1 dds dvars = Ok h -> Forall (fun e => S (snd e)) h.
  Proof.
    intros HS; revert h; induction dvars as [|v2 dvars IH]; intros h E; cbn in E.
    - inversion E; constructor.
    - apply rbind_ok in E as (dd & E1 & E). apply rbind_ok in E as (h' & E2 & E).
      inversion E; subst; clear E.
      unfold unwrap in E1. destruct (hget ptr_eq v2 dds) as [dd'|] eqn:G; inversion E1; subst.
      apply hget_in_snd in G. apply in_map_iff in G as ([w e] & <- & Hin). cbn [snd].
      rewrite Forall_forall in HS. specialize (HS _ Hin). cbn in HS.
      destruct (is_constant_with_value e n0); [|constructor]; auto.
  Qed.

  Lemma grad_hess_grows nsq k S derivs vars :
    world nsq k S -> Forall (fun kv => S (snd kv)) derivs ->
    grows nsq k S (grad_hess derivs vars)
      (fun gh S' => Forall (fun vd => S' (snd vd)) (fst gh) /\ Forall (fun e => S' (snd e)) (snd gh)).
  Proof.
    revert k S; induction vars as [|v1 vars IH]; intros k S HW Hd; cbn [grad_hess].
    - apply grows_ret; auto. cbn; auto.
    - eapply grows_bind with (Q := here).
      { apply grows_lift; auto. intros d Ed. unfold unwrap in Ed.
        destruct (hget ptr_eq v1 derivs) as [d'|] eqn:G; inversion Ed; subst.
        apply hget_in_snd in G. apply in_map_iff in G as ([w e] & <- & Hin).
        rewrite Forall_forall in Hd. apply (Hd _ Hin). }
      intros d k1 S1 _ Hi1 HW1 Hd1.
      eapply grows_bind; [apply derivatives_grows; eauto|].
      intros dds k2 S2 _ Hi2 HW2 Hdds.
      eapply grows_bind with (Q := fun hs S => Forall (fun e => S (snd e)) hs).
      { apply grows_lift; auto. intros hs Eh. eapply (hess_entries_here _ dds); [exact Hdds|exact Eh]. }
      intros hs k3 S3 _ Hi3 HW3 Hhs.
      eapply grows_bind; [apply IH; auto|].
      { eapply Forall_impl; [|exact Hd]. cbn; auto. }
      intros [g h] k4 S4 _ Hi4 HW4 [Hg Hh]. apply grows_ret; auto. cbn [fst snd] in *. split.
      + constructor; auto.
      + apply Forall_app; split; auto. eapply Forall_impl; [|exact Hhs]. cbn; auto.
  Qed.

  Theorem std_components_grows nsq k S (self : node T) :
    world nsq k S -> S self -> grows nsq k S (std_components self) comps_here.
  Proof.
    intros HW Hs. unfold std_components.
    eapply grows_bind with (Q := fun _ _ => True).
    { intros a k' E; inversion E; subst. split; [lia|]. exists S. auto using incl_refl. }
    intros t k1 S1 _ Hi1 HW1 _. destruct (p_affine (std_properties self)).
    - eapply grows_bind with (Q := fun g S => Forall (fun vd => S (snd vd)) g).
      + assert (G : forall L k S, world nsq k S -> grows nsq k S
           (mapM (fun kv => bind (mk_const (snd kv)) (fun c => ret (fst kv, c))) L)
           (fun (g : list (node T * node T)) S => Forall (fun vd => S (snd vd)) g)).
        { clear. induction L as [|[v c] L IH]; intros k S HW; cbn [mapM].
          - apply grows_ret; auto.
          - eapply grows_bind with (Q := fun vd S => S (snd vd)).
            { eapply grows_bind; [apply mk_const_grows; auto|].
              intros a k' S' _ _ HW' [Ha _]. apply grows_ret; auto. }
            intros b k' S' _ _ HW' Hb. eapply grows_bind; [apply IH; auto|].
            intros bs k2 S2 _ Hi2 HW2 Hbs. apply grows_ret; auto. }
        apply G; auto.
      + intros g k2 S2 _ Hi2 HW2 Hg. apply grows_ret; auto. repeat split; cbn; auto.
    - eapply grows_bind; [apply derivatives_grows; auto|].
      intros ds k2 S2 _ Hi2 HW2 Hds. eapply grows_bind; [apply grad_hess_grows; auto|].
      intros [g h] k3 S3 _ Hi3 HW3 [Hg Hh]. apply grows_ret; auto. repeat split; cbn; auto.
  Qed.

  (** The only panic possible is the failed assertion of a sum. *)
  Lemma hess_entries_total v1 (dds : list (node T * node T)) dvars :
    (forall v, In v dvars -> exists d, hget ptr_eq v dds = Some d) ->
    exists h, hess_entries v1 dds dvars = Ok h.
  Proof.
    induction dvars as [|v2 dvars IH]; intros G; cbn; [eauto|].
    destruct (G v2) as [d ->]; [cbn; auto|]. cbn.
    destruct IH as [h ->]; [intros; apply G; cbn; auto|]. cbn. eauto.
  Qed.

  Lemma grad_hess_panic nsq k S derivs vars p :
    world nsq k S -> Forall (fun kv => S (snd kv)) derivs -> forallb is_var vars = true ->
    (forall v, In v vars -> exists d, hget ptr_eq v derivs = Some d) ->
    grad_hess derivs vars k = Panic p -> p = PAssert.
  Proof.
    revert k S; induction vars as [|v1 vars IH]; intros k S HW Hd Hv G E; [discriminate|].
    cbn [grad_hess] in E. apply bind_panic in E as [E|(d & k1 & E1 & E)].
    { destruct (G v1) as [d Gd]; [cbn; auto|]. rewrite Gd in E. discriminate. }
    apply lift_ok in E1 as [E1 ->].
    assert (Sd : S d).
    { unfold unwrap in E1. destruct (hget ptr_eq v1 derivs) as [d'|] eqn:G1; inversion E1; subst.
      apply hget_in_snd in G1. apply in_map_iff in G1 as ([w e] & <- & Hin).
      rewrite Forall_forall in Hd. apply (Hd _ Hin). }
    apply bind_panic in E as [E|(dds & k2 & E2 & E)].
    { apply (derivatives_panic nsq k S) in E; auto. destruct E as [[_ E]|[E _]]; auto. congruence. }
    destruct (derivatives_grows nsq k S d (v1 :: vars) HW Sd _ _ E2) as (_ & S2 & Hi2 & HW2 & _).
    apply derivatives_ok in E2 as (_ & _ & _ & Hdd).
    apply bind_panic in E as [E|(hs & k3 & E3 & E)].
    { destruct (hess_entries_total v1 dds (v1 :: vars)) as [h Eh].
      - intros v Hin. destruct (Hdd v) as (dd & _ & _ & Gv & _); [apply smem_in; auto|]. eauto.
      - rewrite Eh in E. discriminate. }
    apply lift_ok in E3 as [E3 ->].
    apply bind_panic in E as [E|(gh & k4 & E4 & E)]; [|discriminate].
    eapply IH; [exact HW2| | | |exact E].
    - eapply Forall_impl; [|exact Hd]. cbn; auto.
    - cbn in Hv. apply andb_true_iff in Hv. tauto.
    - intros v Hin. apply G. cbn; auto.
  Qed.

  Theorem std_components_panic nsq k S (self : node T) p :
    world nsq k S -> S self -> std_components self k = Panic p ->
    p = PAssert /\ p_affine (std_properties self) = false.
  Proof.
    intros HW Hs E. unfold std_components in E. apply bind_panic in E as [E|(t & k0 & Et & E)]; [discriminate|].
    inversion Et; subst t k0. destruct (p_affine (std_properties self)).
    - exfalso. apply bind_panic in E as [E|(g & k1 & E1 & E2)]; [|discriminate].
      revert E. generalize (ord 3 k (p_a (std_properties self))) as L. clear. intros L. generalize k as k0.
      induction L as [|[v c] L IH]; intros k0 E; [discriminate|]. cbn in E.
      apply bind_panic in E as [E|(bs & k2 & E2 & E)]; [eauto|discriminate].
    - split; auto.
      assert (Hv : forallb is_var (map fst (ord 3 k (p_a (std_properties self)))) = true).
      { apply forallb_forall. intros v Hin. pose proof (keys_vars self) as Hkv.
        rewrite forallb_forall in Hkv. apply Hkv. eapply Permutation_in; [|exact Hin].
        apply Permutation_map, ord_perm. }
      apply bind_panic in E as [E|(ds & k1 & E1 & E)].
      { apply (derivatives_panic nsq k S) in E; auto. destruct E as [[_ E]|[E _]]; auto. congruence. }
      destruct (derivatives_grows nsq k S _ _ HW Hs _ _ E1) as (_ & S2 & Hi2 & HW2 & Hds).
      apply derivatives_ok in E1 as (_ & _ & _ & Hdd).
      apply bind_panic in E as [E|(gh & k4 & E4 & E)]; [|discriminate].
      eapply grad_hess_panic; [exact HW2|exact Hds|exact Hv| |exact E].
      intros v Hin. destruct (Hdd v) as (d & _ & _ & G & _); [apply smem_in; auto|]. eauto.
  Qed.

  (** [derivatives] is a sequence of path sums. *)
  Theorem derivatives_run (self : node T) vars k :
    forallb is_var vars = true ->
    derivatives self vars k =
    foldM (fun ds v => bind (path_sum (rpaths v self)) (fun d => ret (hinsert ptr_eq v d ds)))
          (ord 2 k (sextend ptr_eq [] vars)) [] k.
  Proof.
    intros Hv. unfold derivatives, check_vars. unfold bind at 1, lift at 1. rewrite Hv.
    unfold bind at 1, now. unfold bind at 1, lift at 1.
    destruct (all_simple_paths_ok k self vars Hv) as (ps & Eps & _ & Gps). rewrite Eps.
    assert (Hin : forall v, In v (ord 2 k (sextend ptr_eq [] vars)) -> hget ptr_eq v ps = Some (rpaths v self)).
    { intros v Hin. rewrite Gps. replace (smem ptr_eq v vars) with true; auto. symmetry.
      assert (Hs : smem ptr_eq v (sextend ptr_eq [] vars) = true).
      { apply smem_in. eapply Permutation_in; [apply ord_perm|exact Hin]. }
      rewrite psmem_sextend in Hs. exact Hs. }
    revert Hin. generalize (ord 2 k (sextend ptr_eq [] vars)) as L, ([] : list (node T * node T)) as ds.
    intros L. clear Eps Gps Hv. generalize k as kk. induction L as [|v L IH]; intros kk ds Hin; [reflexivity|].
    cbn [foldM]. unfold bind at 1 3. unfold bind at 1, lift. rewrite Hin by (cbn; auto). cbn [unwrap].
    unfold bind. destruct (path_sum (rpaths v self) kk) as [[d k']|p]; auto. cbn [ret].
    apply IH. intros; apply Hin; cbn; auto.
  Qed.

  (** [derivative] is the path sum. *)
  Theorem derivative_eq (self v : node T) k :
    is_var v = true -> derivative self v k = path_sum (rpaths v self) k.
  Proof.
    intros Hv. unfold derivative, derivatives, check_vars, bind, lift, now. cbn [forallb].
    rewrite Hv. cbn [andb].
    destruct (all_simple_paths_ok k self [v]) as (ps & Eps & _ & Gps).
    { cbn. rewrite Hv. reflexivity. }
    rewrite Eps.
    assert (Hord : ord 2 k (sextend ptr_eq [] [v]) = [v]).
    { apply Permutation_length_1_inv, Permutation_sym, ord_perm. }
    rewrite Hord. cbn [foldM]. unfold bind, ret. rewrite (Gps v).
    unfold smem. cbn [existsb]. rewrite ptr_eq_refl. cbn [orb unwrap].
    destruct (path_sum (rpaths v self) k) as [[d k']|p]; auto.
    cbn. rewrite ptr_eq_refl. reflexivity.
  Qed.
  Theorem derivative_nonvar (self v : node T) k :
    is_var v = false -> derivative self v k = Panic PVarExpected.
  Proof.
    intros Hv. unfold derivative, derivatives, check_vars, bind, lift. cbn [forallb]. rewrite Hv. reflexivity.
  Qed.
  Theorem derivatives_nonvar (self : node T) vars k :
    forallb is_var vars = false -> derivatives self vars k = Panic PVarExpected.
  Proof.
    intros Hv. unfold derivatives, check_vars, bind, lift. rewrite Hv. reflexivity.
  Qed.
End Grad.
