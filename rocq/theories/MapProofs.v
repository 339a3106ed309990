(** Hash maps and hash sets: lookup, keys, permutations. *)
From Verif Require Import Base Num Node NodeInd.

Section Maps.
  Context {K V : Type}.
  Variable eqb : K -> K -> bool.
  Hypothesis eqb_refl : forall a, eqb a a = true.
  Hypothesis eqb_sym : forall a b, eqb a b = eqb b a.
  Hypothesis eqb_trans : forall a b c, eqb a b = true -> eqb b c = true -> eqb a c = true.

  Lemma eqb_l a b c : eqb a b = true -> eqb a c = eqb b c.
  Proof.
    intros Hab. destruct (eqb a c) eqn:E1, (eqb b c) eqn:E2; auto.
    - rewrite (eqb_trans b a c) in E2; auto. rewrite eqb_sym; auto.
    - rewrite (eqb_trans a b c) in E1; auto.
  Qed.

  (** Pairwise different keys. *)
  Fixpoint nodupk (l : list K) : Prop :=
    match l with
    | [] => True
    | a :: l' => existsb (eqb a) l' = false /\ nodupk l'
    end.

  Lemma existsb_perm (f : K -> bool) l l' : Permutation l l' -> existsb f l = existsb f l'.
  Proof.
    induction 1 as [|x l l' HP IH|x y l|l l' l'' H1 IH1 H2 IH2]; cbn; auto.
    - rewrite IH; auto.
    - destruct (f x), (f y); auto.
    - congruence.
  Qed.

  Lemma nodupk_perm l l' : Permutation l l' -> nodupk l -> nodupk l'.
  Proof.
    induction 1 as [|x l l' HP IH|x y l|l l' l'' H1 IH1 H2 IH2]; cbn; auto.
    - intros [Hx Hl]; split; auto. rewrite <- (existsb_perm _ _ _ HP); auto.
    - intros [Hy [Hx Hl]]. apply orb_false_iff in Hy as [Hyx Hy]. repeat split; auto.
      cbn. rewrite eqb_sym, Hyx; auto.
  Qed.

  Lemma nodupk_NoDup l : nodupk l -> NoDup l.
  Proof.
    induction l as [|a l IH]; cbn; intros Hl; constructor; destruct Hl as [Ha Hl]; auto.
    intros Hin. assert (existsb (eqb a) l = true); [|congruence].
    apply existsb_exists. exists a; auto.
  Qed.

  Lemma NoDup_nodupk l :
    (forall a b, In a l -> In b l -> eqb a b = true -> a = b) -> NoDup l -> nodupk l.
  Proof.
    intros Hc; induction 1 as [|a l Hn Hd IH]; cbn; auto. split.
    - destruct (existsb (eqb a) l) eqn:E; auto. apply existsb_exists in E as (b & Hb & Eab).
      apply Hc in Eab; cbn; auto. subst; contradiction.
    - apply IH. intros x y Hx Hy; apply Hc; cbn; auto.
  Qed.

  Lemma nodupk_snoc l a : nodupk (l ++ [a]) <-> nodupk l /\ existsb (eqb a) l = false.
  Proof.
    induction l as [|b l IH]; cbn.
    - intuition.
    - rewrite existsb_app, IH. cbn. rewrite orb_false_r, !orb_false_iff, (eqb_sym a b). intuition.
  Qed.

  (** *** Maps *)
  Implicit Type m : list (K * V).

  Lemma hget_none k m : hget eqb k m = None <-> existsb (eqb k) (map fst m) = false.
  Proof.
    induction m as [|[k' v] m IH]; cbn; [intuition|].
    destruct (eqb k k'); cbn; [split; discriminate|exact IH].
  Qed.

  Lemma hget_some_in k m v : hget eqb k m = Some v -> exists k', In (k', v) m /\ eqb k k' = true.
  Proof.
    induction m as [|[k' v'] m IH]; cbn; [discriminate|].
    destruct (eqb k k') eqn:E.
    - intros Hv; inversion Hv; subst; eauto.
    - intros Hv. destruct (IH Hv) as (k2 & H1 & H2); eauto.
  Qed.

  Lemma hget_in k m v : nodupk (map fst m) -> In (k, v) m -> hget eqb k m = Some v.
  Proof.
    induction m as [|[k' v'] m IH]; cbn; [contradiction|].
    intros [Hk Hm] [Heq|Hin].
    - inversion Heq; subst. rewrite eqb_refl; auto.
    - destruct (eqb k k') eqn:E; [|auto].
      assert (existsb (eqb k') (map fst m) = true); [|congruence].
      apply existsb_exists. exists k; split; [|rewrite eqb_sym; auto].
      apply in_map_iff. exists (k, v); auto.
  Qed.

  Lemma hget_eqb k k' m : eqb k k' = true -> hget eqb k m = hget eqb k' m.
  Proof.
    intros E; induction m as [|[k2 v] m IH]; cbn; auto.
    rewrite (eqb_l k k' k2 E), IH; auto.
  Qed.

  Lemma hget_perm k m m' : nodupk (map fst m) -> Permutation m m' -> hget eqb k m = hget eqb k m'.
  Proof.
    intros Hn HP. revert Hn.
    induction HP as [|[x vx] l l' HP IH|[x vx] [y vy] l|l l' l'' H1 IH1 H2 IH2]; cbn; auto.
    - intros [_ Hl]. rewrite IH; auto.
    - intros [Hy _]. apply orb_false_iff in Hy as [Hyx _].
      destruct (eqb k y) eqn:E1, (eqb k x) eqn:E2; auto.
      rewrite (eqb_trans y k x) in Hyx; [discriminate| |auto]. rewrite eqb_sym; auto.
    - intros Hl. rewrite IH1, IH2; auto.
      apply nodupk_perm with (map fst l); auto. apply Permutation_map; auto.
  Qed.

  Lemma hget_hinsert_same k k' v m : eqb k k' = true -> hget eqb k (hinsert eqb k' v m) = Some v.
  Proof.
    intros E; induction m as [|[k2 v2] m IH]; cbn.
    - rewrite E; auto.
    - destruct (eqb k' k2) eqn:E2; cbn.
      + rewrite (eqb_trans k k' k2); auto.
      + rewrite (eqb_l k k' k2 E), E2; auto.
  Qed.

  Lemma hget_hinsert_other k k' v m : eqb k k' = false -> hget eqb k (hinsert eqb k' v m) = hget eqb k m.
  Proof.
    intros E; induction m as [|[k2 v2] m IH]; cbn.
    - rewrite E; auto.
    - destruct (eqb k' k2) eqn:E2; cbn.
      + destruct (eqb k k2) eqn:E3; auto.
        rewrite (eqb_trans k k2 k') in E; [discriminate|auto|rewrite eqb_sym; auto].
      + destruct (eqb k k2); auto.
  Qed.

  Lemma keys_hinsert_in k v m :
    existsb (eqb k) (map fst m) = true -> map fst (hinsert eqb k v m) = map fst m.
  Proof.
    induction m as [|[k2 v2] m IH]; cbn; [discriminate|].
    destruct (eqb k k2); cbn; auto. intros Hm. rewrite IH; auto.
  Qed.

  Lemma hinsert_new k v m :
    existsb (eqb k) (map fst m) = false -> hinsert eqb k v m = m ++ [(k, v)].
  Proof.
    induction m as [|[k2 v2] m IH]; cbn; auto.
    destruct (eqb k k2); cbn; [discriminate|]. intros Hm. rewrite IH; auto.
  Qed.

  Lemma keys_hinsert k v m :
    map fst (hinsert eqb k v m) =
    if existsb (eqb k) (map fst m) then map fst m else map fst m ++ [k].
  Proof.
    destruct (existsb (eqb k) (map fst m)) eqn:E.
    - apply keys_hinsert_in; auto.
    - rewrite hinsert_new, map_app; auto.
  Qed.

  Lemma nodupk_hinsert k v m : nodupk (map fst m) -> nodupk (map fst (hinsert eqb k v m)).
  Proof.
    rewrite keys_hinsert. destruct (existsb (eqb k) (map fst m)) eqn:E; auto.
    intros Hm. apply nodupk_snoc; auto.
  Qed.

  Lemma hcontains_hinsert k k' v m :
    existsb (eqb k) (map fst (hinsert eqb k' v m)) = eqb k k' || existsb (eqb k) (map fst m).
  Proof.
    destruct (existsb (eqb k) (map fst (hinsert eqb k' v m))) eqn:E.
    - destruct (eqb k k') eqn:Ek; auto. cbn. symmetry.
      destruct (existsb (eqb k) (map fst m)) eqn:E2; auto.
      apply hget_none in E2. rewrite <- (hget_hinsert_other k k' v m Ek) in E2.
      apply hget_none in E2. congruence.
    - apply hget_none in E. destruct (eqb k k') eqn:Ek.
      + rewrite hget_hinsert_same in E; auto. discriminate.
      + rewrite hget_hinsert_other in E; auto. apply hget_none in E. rewrite E; auto.
  Qed.

  (** *** Sets *)
  Lemma smem_sadd s k x : smem eqb x (sadd eqb s k) = eqb x k || smem eqb x s.
  Proof.
    unfold sadd, smem. destruct (existsb (eqb k) s) eqn:E.
    - destruct (eqb x k) eqn:Ex; auto. cbn. apply existsb_exists in E as (y & Hy & Ey).
      apply existsb_exists. exists y; split; auto. eapply eqb_trans; eauto.
    - rewrite existsb_app. cbn. rewrite orb_false_r. apply orb_comm.
  Qed.

  Lemma sadd_nodupk s k : nodupk s -> nodupk (sadd eqb s k).
  Proof.
    unfold sadd, smem. destruct (existsb (eqb k) s) eqn:E; auto.
    intros Hs. apply nodupk_snoc; auto.
  Qed.

  Lemma sextend_nodupk l s : nodupk s -> nodupk (sextend eqb s l).
  Proof.
    unfold sextend. revert s; induction l as [|a l IH]; intros s Hs; cbn; auto.
    apply IH. apply sadd_nodupk; auto.
  Qed.

  Lemma smem_sextend l s x : smem eqb x (sextend eqb s l) = smem eqb x s || smem eqb x l.
  Proof.
    unfold sextend. revert s; induction l as [|a l IH]; intros s; cbn [fold_left].
    - cbn. rewrite orb_false_r; auto.
    - rewrite IH, smem_sadd. unfold smem; cbn.
      destruct (eqb x a), (existsb (eqb x) s), (existsb (eqb x) l); auto.
  Qed.

  Lemma sextend_incl l s x : In x (sextend eqb s l) -> In x s \/ In x l.
  Proof.
    unfold sextend. revert s; induction l as [|a l IH]; intros s; cbn; auto.
    intros Hx. destruct (IH _ Hx) as [H1|H1]; auto.
    unfold sadd in H1. destruct (smem eqb a s); auto.
    apply in_app_or in H1 as [H1|[H1|[]]]; auto.
  Qed.
  Lemma sextend_mono l s x : In x s -> In x (sextend eqb s l).
  Proof.
    unfold sextend. revert s; induction l as [|a l IH]; intros s Hx; cbn; auto.
    apply IH. unfold sadd. destruct (smem eqb a s); auto. apply in_or_app; auto.
  Qed.
End Maps.

#[export] Hint Resolve ptr_eq_refl ptr_eq_sym ptr_eq_trans : core.

Notation pget_same := (hget_hinsert_same ptr_eq ptr_eq_sym ptr_eq_trans).
Notation pget_other := (hget_hinsert_other ptr_eq ptr_eq_sym ptr_eq_trans).
Notation pget_eq := (hget_eqb ptr_eq ptr_eq_sym ptr_eq_trans).
Notation pget_perm := (hget_perm ptr_eq ptr_eq_sym ptr_eq_trans).
Notation pget_in := (hget_in ptr_eq ptr_eq_refl ptr_eq_sym).
Notation psmem_sextend := (smem_sextend ptr_eq ptr_eq_trans).
Notation pnodup_perm := (nodupk_perm ptr_eq ptr_eq_sym).
Notation pnodup_sextend := (sextend_nodupk ptr_eq ptr_eq_sym).

Lemma NoDup_app_intro {A} (l l' : list A) :
  NoDup l -> NoDup l' -> (forall x, In x l -> In x l' -> False) -> NoDup (l ++ l').
Proof.
  intros Hl Hl' Hd. induction Hl as [|a l Ha Hl IH]; cbn; auto. constructor.
  - rewrite in_app_iff. intros [H|H]; [auto|]. apply (Hd a); cbn; auto.
  - apply IH. intros x Hx Hx'. apply (Hd x); cbn; auto.
Qed.
