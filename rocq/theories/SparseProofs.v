(** Where the constraint matrices have entries. *)
From Verif Require Import Base Num Node NodeDiff NodeInd NodeStd Constraint Matrix Problem ModelStd Model ExprSpec ConstrSpec World Fresh
     EvalProofs MapProofs MatSpec StdPropProofs DerivProofs DiffProofs GradProofs PanicProofs CompProofs OccProofs
     ConstrProofs ConstrEquiv PartsProofs BuildProofs BuildMain StdMain PointProofs StdFacts.

Section Sparse.
  Context {T : Type} `{Num T} `{HashOrd}.

  Lemma nodup_row {A B C} (r : nat) (l : list (A * B)) (g : A * B -> C) : NoDup (map fst l) -> NoDup (map fst (map (fun kv => (r, fst kv, g kv)) l)).
  Proof.
    rewrite map_map. cbn [fst]. intros Hn. induction l as [|[a b] l IH]; cbn in *; [constructor|]. inversion Hn as [|? ? Hx Hn']; subst. constructor; [|auto].
    intros Hin. apply in_map_iff in Hin as ([a' b'] & E & Hin). injection E as <-. apply Hx. apply in_map_iff. exists (a', b'); auto.
  Qed.
  Lemma nodup_snoc {A} (l : list A) x : NoDup l -> ~ In x l -> NoDup (l ++ [x]).
  Proof. intros Hn Hx. induction Hn as [|a l Ha Hn IH]; cbn; [repeat constructor; auto|]. constructor; [|apply IH; cbn in Hx; tauto]. rewrite in_app_iff. cbn in *. intuition. Qed.
  Lemma nodup_app {A} (l l' : list A) : NoDup l -> NoDup l' -> (forall x, In x l -> In x l' -> False) -> NoDup (l ++ l').
  Proof.
    intros Hn Hn' Hd. induction Hn as [|a l Ha Hn IH]; cbn; [exact Hn'|]. constructor; [|apply IH; intros x H1 H2; eapply Hd; cbn; eauto].
    rewrite in_app_iff. intros [Hin|Hin]; [auto|]. apply (Hd a); cbn; auto.
  Qed.

  Definition pos (l : list (nat * node T * T)) : list (nat * node T) := map fst l.
  Definition posj (l : list (nat * node T * node T)) : list (nat * node T) := map fst l.
  Definition in_con (c : constraint T) (v : node T) : Prop := occurs v (clhs c) \/ occurs v (crhs c).

  (** One constraint.  The variables of the constraints are older than [K]. *)
  Record part_pos (K k : nat) (c : constraint T) (ar jr : nat) (p : cstd T) (k1 : nat) : Prop := {
    pp_a : NoDup (pos (cs_a p));
    pp_j : NoDup (posj (cs_j p));
    pp_one : (cs_ca p = [] /\ cs_a p = [] /\ cs_cj p = [] /\ cs_j p = []) \/
             (cs_ca p = [c] /\ cs_cj p = [] /\ cs_j p = [] /\
                (forall v, nid v < K -> In (ar, v) (pos (cs_a p)) <-> in_con c v) /\
                ((exists v, K <= nid v /\ In (ar, v) (pos (cs_a p))) <-> ckd c <> Equal)) \/
             (cs_cj p = [c] /\ cs_ca p = [] /\ cs_a p = [] /\
                (forall v, nid v < K -> In (jr, v) (posj (cs_j p)) <-> in_con c v) /\
                ((exists v, K <= nid v /\ In (jr, v) (posj (cs_j p))) <-> ckd c <> Equal));
    pp_new : forall r v, In (r, v) (pos (cs_a p) ++ posj (cs_j p)) -> K <= nid v -> k <= nid v < k1;
    pp_slack : forall r v r' v', In (r, v) (pos (cs_a p) ++ posj (cs_j p)) -> In (r', v') (pos (cs_a p) ++ posj (cs_j p)) ->
                 K <= nid v -> K <= nid v' -> v = v' /\ r = r'
  }.

  Lemma row_pos r (l : list (node T * T)) r' v : In (r', v) (pos (map (fun kv => (r, fst kv, snd kv)) l)) <-> r' = r /\ In v (map fst l).
  Proof.
    unfold pos. rewrite map_map. cbn [fst]. rewrite !in_map_iff. split.
    - intros ([a b] & E & Hin). injection E as <- <-. split; [reflexivity|]. exists (a, b); auto.
    - intros [-> ([a b] & E & Hin)]. cbn in E. subst. exists (v, b); auto.
  Qed.
  Lemma row_posj r (l : list (node T * node T)) r' v : In (r', v) (posj (map (fun kv => (r, fst kv, snd kv)) l)) <-> r' = r /\ In v (map fst l).
  Proof.
    unfold posj. rewrite map_map. cbn [fst]. rewrite !in_map_iff. split.
    - intros ([a b] & E & Hin). injection E as <- <-. split; [reflexivity|]. exists (a, b); auto.
    - intros [-> ([a b] & E & Hin)]. cbn in E. subst. exists (v, b); auto.
  Qed.

  Lemma part_pos_ok nsq K k S c ar jr p ar1 jr1 k1 :
    neqb (nm1 : T) n0 = false -> world nsq k S -> S (clhs c) -> S (crhs c) -> K <= k -> (forall v, in_con c v -> nid v < K) ->
    constr_std c ar jr k = Ok ((p, ar1, jr1), k1) -> part_pos K k c ar jr p k1.
  Proof.
    intros Hm HW Sl Sr HK Hold E. apply constr_std_inv in E as (e & k0 & sc & k2 & E1 & E2 & E).
    destruct (sub_nn_grows nsq k S _ _ HW Sl Sr _ _ E1) as (K1 & S1 & I1 & W1 & Se).
    destruct (std_components_grows nsq k0 S1 _ W1 Se _ _ E2) as (K2 & S2 & I2 & W2 & _ & _ & _).
    destruct (keys_are_vars nsq k0 S1 e W1 Se) as [Nk Hkey'].
    assert (Hkey : forall v, In v (map fst (p_a (std_properties e))) <-> in_con c v).
    { intros v. unfold in_con. rewrite <- (sub_nn_occurs v _ _ _ _ _ Hm E1). apply Hkey'. }
    assert (Ho : forall v, In v (map fst (ord 4 k2 (p_a (std_properties e)))) <-> in_con c v).
    { intros v. rewrite <- Hkey. split; intros Hin; (eapply Permutation_in; [|exact Hin]); [|apply Permutation_sym]; apply Permutation_map, ord_perm. }
    assert (No : NoDup (map fst (ord 4 k2 (p_a (std_properties e))))) by (eapply Permutation_NoDup; [apply Permutation_map, Permutation_sym, ord_perm|exact Nk]).
    assert (Hg : forall v, In v (map fst (sc_gphi sc)) <-> in_con c v) by (intros v; rewrite <- Hkey; apply (gphi_keys e k0 sc k2 E2)).
    assert (Ng : NoDup (map fst (sc_gphi sc))).
    { apply std_components_ok in E2 as (_ & _ & _ & Hv & _). rewrite Hv. eapply Permutation_NoDup; [apply Permutation_map, Permutation_sym, ord_perm|exact Nk]. }
    assert (Hs0 : forall s : node T, nid s = k2 -> ~ in_con c s) by (intros s Hs Hin; apply Hold in Hin; lia).
    destruct E as [x w Ha Hp Hv Hne|Ha He|s Ha Hne Hb Hs|Ha He|s f k3 m1 Ha Hne Hs Ef Hm1].
    - assert (G : forall us ls pr, part_pos K k c ar jr (mk_cstd [] [] [] [] [] [] [] us ls pr) k2).
      { intros us ls pr. constructor; cbn; [apply NoDup_nil|apply NoDup_nil|auto| |]; intros; contradiction. }
      destruct (ckd c); apply G.
    - constructor; cbn [cs_a cs_j cs_ca cs_cj].
      + apply nodup_row, No.
      + constructor.
      + right; left. do 3 (split; [reflexivity|]). split.
        * intros v Hv. rewrite row_pos, Ho. tauto.
        * split; [|intros; contradiction]. intros (v & Hk & Hin). apply row_pos in Hin as [_ Hin]. apply Ho, Hold in Hin. lia.
      + cbn [posj map]. intros r v Hin Hk. rewrite app_nil_r in Hin. apply row_pos in Hin as [_ Hin]. apply Ho, Hold in Hin. lia.
      + cbn [posj map]. intros r v r' v' Hin. rewrite app_nil_r in Hin. intros _ Hk. apply row_pos in Hin as [_ Hin]. apply Ho, Hold in Hin. lia.
    - assert (Hid : nid s = k2) by (subst s; reflexivity). clear Hs.
      assert (Hpos : forall r v, In (r, v) (pos (map (fun kv => (ar, fst kv, snd kv)) (ord 4 k2 (p_a (std_properties e))) ++ [(ar, s, nm1)])) <-> r = ar /\ (in_con c v \/ v = s)).
      { intros r v. unfold pos. rewrite map_app, in_app_iff. fold (pos (map (fun kv => (ar, fst kv, snd kv)) (ord 4 k2 (p_a (std_properties e))))).
        rewrite row_pos, Ho. cbn [map In fst]. split; [intros [[? ?]|[E'|Hf]]; [auto| |destruct Hf]; [injection E' as <- <-; auto]|]. intros [-> [Hc| ->]]; auto. }
      constructor; cbn [cs_a cs_j cs_ca cs_cj].
      + unfold pos. rewrite map_app. cbn [map fst]. apply nodup_snoc; [apply nodup_row, No|]. intros Hin. apply (row_pos ar) in Hin as [_ Hin]. apply Ho in Hin. eapply Hs0; eauto.
      + constructor.
      + right; left. do 3 (split; [reflexivity|]). split.
        * intros v Hv. rewrite Hpos. split; [intros [_ [Hc| ->]]; [exact Hc|lia]|auto].
        * split; [intros _; exact Hne|]. intros _. exists s. split; [lia|]. apply Hpos. auto.
      + cbn [posj map]. intros r v. rewrite app_nil_r, Hpos. intros [_ [Hc| ->]] Hk; [apply Hold in Hc; lia|lia].
      + cbn [posj map]. intros r v r' v'. rewrite app_nil_r, !Hpos. intros [-> [Hc| ->]] [-> [Hc'| ->]] Hk Hk'; auto;
          try (apply Hold in Hc; lia); try (apply Hold in Hc'; lia).
    - constructor; cbn [cs_a cs_j cs_ca cs_cj].
      + constructor.
      + apply nodup_row, Ng.
      + right; right. do 3 (split; [reflexivity|]). split.
        * intros v Hv. rewrite row_posj, Hg. tauto.
        * split; [|intros; contradiction]. intros (v & Hk & Hin). apply row_posj in Hin as [_ Hin]. apply Hg, Hold in Hin. lia.
      + cbn [pos map app]. intros r v Hin Hk. apply row_posj in Hin as [_ Hin]. apply Hg, Hold in Hin. lia.
      + cbn [pos map app]. intros r v r' v' Hin _ Hk. apply row_posj in Hin as [_ Hin]. apply Hg, Hold in Hin. lia.
    - assert (Hid : nid s = k2) by (subst s; reflexivity).
      destruct (mk_var_grows nsq k2 S2 (slack_name "_s_j" jr) VarContinuous W2 _ _ eq_refl) as (_ & S3 & I3 & W3 & Ss & _). rewrite <- Hs in Ss.
      destruct (sub_nn_grows nsq _ S3 e s W3 (I3 _ (I2 _ Se)) Ss _ _ Ef) as (K4 & _). clear Hs.
      assert (Hpos : forall r v, In (r, v) (posj (map (fun kv => (jr, fst kv, snd kv)) (sc_gphi sc) ++ [(jr, s, m1)])) <-> r = jr /\ (in_con c v \/ v = s)).
      { intros r v. unfold posj. rewrite map_app, in_app_iff. fold (posj (map (fun kv => (jr, fst kv, snd kv)) (sc_gphi sc))).
        rewrite row_posj, Hg. cbn [map In fst]. split; [intros [[? ?]|[E'|Hf]]; [auto| |destruct Hf]; [injection E' as <- <-; auto]|]. intros [-> [Hc| ->]]; auto. }
      constructor; cbn [cs_a cs_j cs_ca cs_cj].
      + constructor.
      + unfold posj. rewrite map_app. cbn [map fst]. apply nodup_snoc; [apply nodup_row, Ng|]. intros Hin. apply (row_posj jr) in Hin as [_ Hin]. apply Hg in Hin. eapply Hs0; eauto.
      + right; right. do 3 (split; [reflexivity|]). split.
        * intros v Hv. rewrite Hpos. split; [intros [_ [Hc| ->]]; [exact Hc|lia]|auto].
        * split; [intros _; exact Hne|]. intros _. exists s. split; [lia|]. apply Hpos. auto.
      + cbn [pos map app]. intros r v. rewrite Hpos. intros [_ [Hc| ->]] Hk; [apply Hold in Hc; lia|lia].
      + cbn [pos map app]. intros r v r' v'. rewrite !Hpos. intros [-> [Hc| ->]] [-> [Hc'| ->]] Hk Hk'; auto;
          try (apply Hold in Hc; lia); try (apply Hold in Hc'; lia).
  Qed.

  (** All of them. *)
  Record parts_pos (K k : nat) (ar jr : nat) (p : cstd T) (k1 : nat) : Prop := {
    qp_a : NoDup (pos (cs_a p));
    qp_j : NoDup (posj (cs_j p));
    qp_row_a : forall i c, nth_error (cs_ca p) i = Some c ->
      (forall v, nid v < K -> In (ar + i, v) (pos (cs_a p)) <-> in_con c v) /\
      ((exists v, K <= nid v /\ In (ar + i, v) (pos (cs_a p))) <-> ckd c <> Equal);
    qp_row_j : forall i c, nth_error (cs_cj p) i = Some c ->
      (forall v, nid v < K -> In (jr + i, v) (posj (cs_j p)) <-> in_con c v) /\
      ((exists v, K <= nid v /\ In (jr + i, v) (posj (cs_j p))) <-> ckd c <> Equal);
    qp_new : forall r v, In (r, v) (pos (cs_a p) ++ posj (cs_j p)) -> K <= nid v -> k <= nid v < k1;
    qp_slack_a : forall r v r' v', In (r, v) (pos (cs_a p)) -> In (r', v') (pos (cs_a p)) -> K <= nid v -> K <= nid v' -> (v = v' <-> r = r');
    qp_slack_j : forall r v r' v', In (r, v) (posj (cs_j p)) -> In (r', v') (posj (cs_j p)) -> K <= nid v -> K <= nid v' -> (v = v' <-> r = r');
    qp_slack : forall r v r' v', In (r, v) (pos (cs_a p)) -> In (r', v') (posj (cs_j p)) -> K <= nid v -> K <= nid v' -> v <> v'
  }.
  Lemma rows_pos l lo hi r v : Forall (fun e : nat * node T * T => lo <= fst (fst e) < hi) l -> In (r, v) (pos l) -> lo <= r < hi.
  Proof. rewrite Forall_forall. unfold pos. intros HF Hin. apply in_map_iff in Hin as (e & E & Hin). specialize (HF e Hin). rewrite E in HF. exact HF. Qed.
  Lemma rows_posj l lo hi r v : Forall (fun e : nat * node T * node T => lo <= fst (fst e) < hi) l -> In (r, v) (posj l) -> lo <= r < hi.
  Proof. rewrite Forall_forall. unfold posj. intros HF Hin. apply in_map_iff in Hin as (e & E & Hin). specialize (HF e Hin). rewrite E in HF. exact HF. Qed.

  Lemma parts_pos_ok nsq K S cs ar jr k ps ar' jr' k' :
    neqb (nm1 : T) n0 = false -> world nsq k S -> Forall (fun c => S (clhs c) /\ S (crhs c)) cs -> K <= k ->
    (forall c v, In c cs -> in_con c v -> nid v < K) ->
    parts cs ar jr k ps ar' jr' k' -> parts_pos K k ar jr (cat ps) k'.
  Proof.
    intros Hm HW HS HK Hc HP; revert S HW HS HK Hc.
    induction HP as [ar jr k|c cs ar jr k p ar1 jr1 k1 ps ar2 jr2 k2 E HP IH]; intros S HW HS HK Hc.
    { constructor; cbn; [apply NoDup_nil|apply NoDup_nil|intros [|i] d Hi; discriminate Hi|intros [|i] d Hi; discriminate Hi| | | |]; intros; contradiction. }
    inversion HS as [|? ? [Sl Sr] HS']; subst.
    destruct (constr_std_in nsq k S c ar jr p ar1 jr1 k1 HW Sl Sr E) as (K1 & S1 & I1 & W1 & P1).
    pose proof (part_pos_ok nsq K k S c ar jr p ar1 jr1 k1 Hm HW Sl Sr HK (fun v => Hc c v (or_introl eq_refl)) E) as [Q1 Q2 Q3 Q4 Q5].
    assert (HS1 : Forall (fun c => S1 (clhs c) /\ S1 (crhs c)) cs) by (eapply Forall_impl; [|exact HS']; cbn; intuition).
    destruct (parts_in nsq S1 cs ar1 jr1 k1 ps ar2 jr2 k2 W1 HS1 HP) as (K2 & _).
    destruct (IH S1 W1 HS1 ltac:(lia) (fun c v H => Hc c v (or_intror H))) as [R1 R2 R3 R4 R5 R6 R7 R8]. clear IH.
    pose proof (constr_std_rows _ _ _ _ _ _ _ _ E) as [A1 A2 A3 A4 A5 A6 A7]. pose proof (parts_rows _ _ _ _ _ _ _ _ HP) as [B1 B2 B3 B4 B5 B6 B7].
    pose proof (fun r v => rows_pos (cs_a p) ar ar1 r v A3) as La. pose proof (fun r v => rows_pos (cs_a (cat ps)) ar1 ar2 r v B3) as Lb.
    pose proof (fun r v => rows_posj (cs_j p) jr jr1 r v A7) as Lc. pose proof (fun r v => rows_posj (cs_j (cat ps)) jr1 jr2 r v B7) as Ld.
    change (cat (p :: ps)) with (cstd_app p (cat ps)). 
    assert (Ea : forall r v, In (r, v) (pos (cs_a (cstd_app p (cat ps)))) <-> In (r, v) (pos (cs_a p)) \/ In (r, v) (pos (cs_a (cat ps)))).
    { intros r v. unfold pos. cbn [cstd_app cs_a]. rewrite map_app. apply in_app_iff. }
    assert (Ej : forall r v, In (r, v) (posj (cs_j (cstd_app p (cat ps)))) <-> In (r, v) (posj (cs_j p)) \/ In (r, v) (posj (cs_j (cat ps)))).
    { intros r v. unfold posj. cbn [cstd_app cs_j]. rewrite map_app. apply in_app_iff. }
    assert (Na : forall r v, In (r, v) (pos (cs_a p)) -> K <= nid v -> k <= nid v < k1) by (intros r v Hin; apply (Q4 r v); apply in_or_app; auto).
    assert (Nj : forall r v, In (r, v) (posj (cs_j p)) -> K <= nid v -> k <= nid v < k1) by (intros r v Hin; apply (Q4 r v); apply in_or_app; auto).
    assert (Ma : forall r v, In (r, v) (pos (cs_a (cat ps))) -> K <= nid v -> k1 <= nid v < k2) by (intros r v Hin; apply (R5 r v); apply in_or_app; auto).
    assert (Mj : forall r v, In (r, v) (posj (cs_j (cat ps))) -> K <= nid v -> k1 <= nid v < k2) by (intros r v Hin; apply (R5 r v); apply in_or_app; auto).
    constructor.
    - unfold pos. cbn [cstd_app cs_a]. rewrite map_app. apply nodup_app; [exact Q1|exact R1|]. intros [r v] H1' H2'. specialize (La r v H1'). specialize (Lb r v H2'). lia.
    - unfold posj. cbn [cstd_app cs_j]. rewrite map_app. apply nodup_app; [exact Q2|exact R2|]. intros [r v] H1' H2'. specialize (Lc r v H1'). specialize (Ld r v H2'). lia.
    - intros i d Hi. cbn [cstd_app cs_ca] in Hi. destruct (Nat.lt_ge_cases i (length (cs_ca p))) as [Hlt|Hge].
      + rewrite nth_error_app1 in Hi by exact Hlt. destruct Q3 as [(E0 & _)|[(E0 & _ & _ & X1 & X2)|(_ & E0 & _)]]; rewrite E0 in Hlt, Hi; cbn in Hlt; try lia.
        assert (i = 0) as -> by lia. cbn in Hi. injection Hi as <-. rewrite Nat.add_0_r.
        assert (G : forall v, In (ar, v) (pos (cs_a (cstd_app p (cat ps)))) <-> In (ar, v) (pos (cs_a p))).
        { intros v. rewrite Ea. split; [intros [|Hin]; auto|auto]. apply Lb in Hin. rewrite E0 in A2. cbn in A2. lia. }
        split; [intros v Hv; rewrite G; apply X1, Hv|]. rewrite <- X2. split; intros (v & H1' & H2'); exists v; (split; [exact H1'|]); apply G; exact H2'.
      + rewrite nth_error_app2 in Hi by exact Hge. destruct (R3 _ _ Hi) as [X1 X2]. replace (ar1 + (i - length (cs_ca p))) with (ar + i) in * by lia.
        assert (G : forall v, In (ar + i, v) (pos (cs_a (cstd_app p (cat ps)))) <-> In (ar + i, v) (pos (cs_a (cat ps)))).
        { intros v. rewrite Ea. split; [intros [Hin|]; auto|auto]. apply La in Hin. lia. }
        split; [intros v Hv; rewrite G; apply X1, Hv|]. rewrite <- X2. split; intros (v & H1' & H2'); exists v; (split; [exact H1'|]); apply G; exact H2'.
    - intros i d Hi. cbn [cstd_app cs_cj] in Hi. destruct (Nat.lt_ge_cases i (length (cs_cj p))) as [Hlt|Hge].
      + rewrite nth_error_app1 in Hi by exact Hlt. destruct Q3 as [(_ & _ & E0 & _)|[(_ & E0 & _)|(E0 & _ & _ & X1 & X2)]]; rewrite E0 in Hlt, Hi; cbn in Hlt; try lia.
        assert (i = 0) as -> by lia. cbn in Hi. injection Hi as <-. rewrite Nat.add_0_r.
        assert (G : forall v, In (jr, v) (posj (cs_j (cstd_app p (cat ps)))) <-> In (jr, v) (posj (cs_j p))).
        { intros v. rewrite Ej. split; [intros [|Hin]; auto|auto]. apply Ld in Hin. rewrite E0 in A5. cbn in A5. lia. }
        split; [intros v Hv; rewrite G; apply X1, Hv|]. rewrite <- X2. split; intros (v & H1' & H2'); exists v; (split; [exact H1'|]); apply G; exact H2'.
      + rewrite nth_error_app2 in Hi by exact Hge. destruct (R4 _ _ Hi) as [X1 X2]. replace (jr1 + (i - length (cs_cj p))) with (jr + i) in * by lia.
        assert (G : forall v, In (jr + i, v) (posj (cs_j (cstd_app p (cat ps)))) <-> In (jr + i, v) (posj (cs_j (cat ps)))).
        { intros v. rewrite Ej. split; [intros [Hin|]; auto|auto]. apply Lc in Hin. lia. }
        split; [intros v Hv; rewrite G; apply X1, Hv|]. rewrite <- X2. split; intros (v & H1' & H2'); exists v; (split; [exact H1'|]); apply G; exact H2'.
    - intros r v Hin Hv. apply in_app_or in Hin as [Hin|Hin]; [apply Ea in Hin as [Hin|Hin]|apply Ej in Hin as [Hin|Hin]].
      + specialize (Na _ _ Hin Hv). lia.
      + specialize (Ma _ _ Hin Hv). lia.
      + specialize (Nj _ _ Hin Hv). lia.
      + specialize (Mj _ _ Hin Hv). lia.
    - intros r v r' v' H1' H2' Hv Hv'. apply Ea in H1', H2'. destruct H1' as [G1|G1], H2' as [G2|G2].
      + destruct (Q5 r v r' v') as [-> ->]; auto using in_or_app. tauto.
      + specialize (Na _ _ G1 Hv). specialize (Ma _ _ G2 Hv'). specialize (La _ _ G1). specialize (Lb _ _ G2). split; intros; subst; lia.
      + specialize (Ma _ _ G1 Hv). specialize (Na _ _ G2 Hv'). specialize (Lb _ _ G1). specialize (La _ _ G2). split; intros; subst; lia.
      + eapply R6; eauto.
    - intros r v r' v' H1' H2' Hv Hv'. apply Ej in H1', H2'. destruct H1' as [G1|G1], H2' as [G2|G2].
      + destruct (Q5 r v r' v') as [-> ->]; auto using in_or_app. tauto.
      + specialize (Nj _ _ G1 Hv). specialize (Mj _ _ G2 Hv'). specialize (Lc _ _ G1). specialize (Ld _ _ G2). split; intros; subst; lia.
      + specialize (Mj _ _ G1 Hv). specialize (Nj _ _ G2 Hv'). specialize (Ld _ _ G1). specialize (Lc _ _ G2). split; intros; subst; lia.
      + eapply R7; eauto.
    - intros r v r' v' H1' H2' Hv Hv' <-. apply Ea in H1'. apply Ej in H2'. destruct H1' as [G1|G1], H2' as [G2|G2].
      + destruct Q3 as [(_ & E0 & _ & _)|[(_ & _ & E0 & _)|(_ & _ & E0 & _)]]; rewrite E0 in *; [destruct G1|destruct G2|destruct G1].
      + specialize (Na _ _ G1 Hv). specialize (Mj _ _ G2 Hv'). lia.
      + specialize (Ma _ _ G1 Hv). specialize (Nj _ _ G2 Hv'). lia.
      + eapply R8; eauto.
  Qed.

  (** Matrices built from them. *)
  Lemma pos_matrix {V} (vars : list (node T)) nr nc (l : list (nat * node T * V)) (d : list T) :
    nodupk ptr_eq vars -> Forall (fun e => In (snd (fst e)) vars) l -> length d = length l -> NoDup (map fst l) ->
    let a := mk_coo nr nc (map (fun e => fst (fst e)) l) (map (fun e => ix vars (snd (fst e))) l) d in
    NoDup (map fst (entries a)) /\
    forall r v i, nth_error vars i = Some v -> (In (r, i) (map fst (entries a)) <-> In (r, v) (map fst l)).
  Proof.
    intros Hnd HF Hl HN a.
    assert (E : map fst (entries a) = map (fun e => (fst (fst e), ix vars (snd (fst e)))) l).
    { unfold entries, a. cbn [coo_ri coo_ci coo_data]. clear -Hl. revert d Hl. induction l as [|e l IH]; intros [|x d] Hl; cbn in Hl; try discriminate; [reflexivity|].
      cbn [map combine fst]. rewrite IH by lia. reflexivity. }
    rewrite E. clear E a Hl d. rewrite Forall_forall in HF. split.
    - induction l as [|[[r v] x] l IH]; cbn [map fst snd] in *; [constructor|]. inversion HN as [|? ? Hx HN']; subst. constructor; [|apply IH; auto; intros; apply HF; right; auto].
      intros Hin. apply in_map_iff in Hin as ([[r' v'] x'] & E & Hin). cbn [fst snd] in E. injection E as -> E.
      apply (ix_inj vars Hnd) in E; [|exact (HF _ (or_intror Hin))|exact (HF _ (or_introl eq_refl))]. subst v'. apply Hx. apply (in_map fst) in Hin. exact Hin.
    - intros r v i Hi. rewrite !in_map_iff. split.
      + intros ([[r' v'] x'] & E & Hin). cbn [fst snd] in E. injection E as -> <-. exists (r, v', x'). split; [|exact Hin]. cbn.
        pose proof (ix_nth vars Hnd v' (HF _ Hin)) as G. cbn [fst snd] in G. congruence.
      + intros ([[r' v'] x'] & E & Hin). cbn [fst] in E. injection E as -> ->. exists (r, v, x'). split; [|exact Hin]. cbn [fst snd]. f_equal.
        pose proof (ix_nth vars Hnd v (HF _ Hin)) as G. cbn [fst snd] in G.
        assert (Nv : NoDup vars) by (apply (nodupk_NoDup ptr_eq); [apply ptr_eq_refl|exact Hnd]).
        eapply (proj1 (NoDup_nth_error vars) Nv); [apply nth_error_Some; congruence|congruence].
  Qed.
End Sparse.
