(** [build_problem] in closed form, for components whose variables are known. *)
From Verif Require Import Base Num Node NodeInd NodeStd Constraint Matrix Problem ModelStd MapProofs
     MatSpec MatrixProofs ProblemProofs GradProofs ConstrProofs BuildProofs.
From Coq Require Import Sorted.

(** ** The order on names *)
Lemma ascii_compare_eq a b : Ascii.compare a b = Eq -> a = b.
Proof. apply Ascii.compare_eq_iff. Qed.

Lemma string_leb_cons a s b t :
  String.leb (String a s) (String b t) =
  match Ascii.compare a b with Eq => String.leb s t | Lt => true | Gt => false end.
Proof. unfold String.leb. cbn. destruct (Ascii.compare a b); reflexivity. Qed.

Lemma ascii_compare_refl a : Ascii.compare a a = Eq.
Proof. apply N.compare_refl. Qed.

Lemma string_leb_trans s : forall t u, String.leb s t = true -> String.leb t u = true -> String.leb s u = true.
Proof.
  induction s as [|a s IH]; intros [|b t] [|c u]; try (cbn; congruence); try reflexivity.
  rewrite !string_leb_cons. intros H1 H2.
  destruct (Ascii.compare a b) eqn:E1; [apply ascii_compare_eq in E1; subst| |discriminate].
  - destruct (Ascii.compare b c) eqn:E2; auto. eauto.
  - destruct (Ascii.compare b c) eqn:E2; [apply ascii_compare_eq in E2; subst; rewrite E1; auto| |discriminate].
    destruct (Ascii.compare a c) eqn:E3; auto.
    + exfalso. apply ascii_compare_eq in E3; subst. unfold Ascii.compare in E1, E2.
      rewrite N.compare_lt_iff in E1, E2. lia.
    + exfalso. unfold Ascii.compare in *. rewrite N.compare_lt_iff in E1, E2. rewrite N.compare_gt_iff in E3. lia.
Qed.

Section Build.
  Context {T : Type} `{Num T} `{HashOrd}.

  Lemma sort_insert_perm (x : node T) l : Permutation (sort_insert x l) (x :: l).
  Proof.
    induction l as [|y l IH]; cbn; auto. destruct (String.leb (name x) (name y)); auto.
    eapply perm_trans; [apply perm_skip; exact IH|apply perm_swap].
  Qed.
  Lemma sort_vars_perm (l : list (node T)) : Permutation (sort_vars l) l.
  Proof.
    induction l as [|x l IH]; cbn; auto. eapply perm_trans; [apply sort_insert_perm|]. apply perm_skip; auto.
  Qed.
  Definition name_le (a b : node T) : Prop := String.leb (name a) (name b) = true.
  Lemma sort_vars_sorted (l : list (node T)) : StronglySorted name_le (sort_vars l).
  Proof.
    induction l as [|x l IH]; [constructor|]. change (sort_vars (x :: l)) with (sort_insert x (sort_vars l)).
    revert IH. generalize (sort_vars l) as s0. intros s0 IH. induction IH as [|y l' Hl IH Hy]; cbn.
    - constructor; constructor.
    - destruct (String.leb (name x) (name y)) eqn:E.
      + constructor; [constructor; auto|]. constructor; [exact E|].
        eapply Forall_impl; [|exact Hy]. intros z Hz. unfold name_le in *. eapply string_leb_trans; eauto.
      + constructor; auto. eapply Permutation_Forall; [apply Permutation_sym, sort_insert_perm|].
        constructor; auto. unfold name_le. destruct (String.leb_total (name x) (name y)); congruence.
  Qed.

  Definition problem_vars (t : nat) (obj : std_comp T) (cs : cstd T) : list (node T) :=
    sort_vars (ord 5 t (var_set (sc_prop obj) (cs_prop cs))).

  Lemma var_set_nodup (obj : std_prop T) props : nodupk ptr_eq (var_set obj props).
  Proof.
    unfold var_set. assert (G : nodupk ptr_eq (sextend ptr_eq [] (map fst (p_a obj)))).
    { apply pnodup_sextend. exact I. }
    revert G. generalize (sextend ptr_eq [] (map fst (p_a obj))) as s.
    induction props as [|p props IH]; intros s Hs; cbn; auto. apply IH. apply pnodup_sextend; auto.
  Qed.
  Lemma var_set_in (obj : std_prop T) props v :
    In v (var_set obj props) -> In v (map fst (p_a obj)) \/ In v (concat (map (fun p => map fst (p_a p)) props)).
  Proof.
    unfold var_set. revert v. assert (G : forall v, In v (sextend ptr_eq [] (map fst (p_a obj))) -> In v (map fst (p_a obj))).
    { intros v Hv. apply sextend_incl in Hv as [[]|]; auto. }
    revert G. generalize (sextend ptr_eq [] (map fst (p_a obj))) as s. generalize (map fst (p_a obj)) as K.
    induction props as [|p props IH]; intros K s Hs v Hv; cbn in *; [auto|].
    apply (IH (K ++ map fst (p_a p))) in Hv.
    - rewrite !in_app_iff in *. tauto.
    - intros w Hw. apply sextend_incl in Hw. rewrite in_app_iff. firstorder.
  Qed.
  Lemma var_set_has (obj : std_prop T) props v :
    In v (map fst (p_a obj)) \/ In v (concat (map (fun p => map fst (p_a p)) props)) ->
    smem ptr_eq v (var_set obj props) = true.
  Proof.
    unfold var_set. revert v. assert (G : forall v, In v (map fst (p_a obj)) -> smem ptr_eq v (sextend ptr_eq [] (map fst (p_a obj))) = true).
    { intros v Hv. rewrite psmem_sextend. cbn. apply existsb_exists. exists v. split; [exact Hv|apply ptr_eq_refl]. }
    revert G. generalize (sextend ptr_eq [] (map fst (p_a obj))) as s. generalize (map fst (p_a obj)) as K.
    induction props as [|p props IH]; intros K s Hs v Hv; cbn in *; [destruct Hv as [Hv|[]]; exact (Hs v Hv)|].
    apply (IH (K ++ map fst (p_a p))).
    - intros w Hw. rewrite psmem_sextend. apply orb_true_iff. apply in_app_or in Hw as [Hw|Hw]; auto.
      right. apply existsb_exists. exists w. split; [exact Hw|apply ptr_eq_refl].
    - rewrite !in_app_iff in *. tauto.
  Qed.

  Section Main.
    Variables (t : nat) (init : list (node T * T)) (obj : std_comp T) (cs : cstd T).
    Let keys := map fst (p_a (sc_prop obj)) ++ prop_keys cs.
    Hypothesis Hcoh : forall v w, In v keys -> In w keys -> ptr_eq v w = true -> v = w.
    Hypothesis Hobj : nodupk ptr_eq (map fst (p_a (sc_prop obj))).
    Hypothesis Hg : Forall (fun ge => In (fst ge) (map fst (p_a (sc_prop obj)))) (sc_gphi obj).
    Hypothesis Hh : Forall (fun e => In (fst (fst e)) (map fst (p_a (sc_prop obj))) /\
                                     In (snd (fst e)) (map fst (p_a (sc_prop obj)))) (sc_hphi obj).
    Hypothesis Ha : Forall (fun e => In (snd (fst e)) (prop_keys cs)) (cs_a cs).
    Hypothesis Hj : Forall (fun e => In (snd (fst e)) (prop_keys cs)) (cs_j cs).
    Hypothesis Hhs : Forall (Forall (fun e => In (fst (fst e)) (prop_keys cs) /\ In (snd (fst e)) (prop_keys cs))) (cs_h cs).
    Hypothesis Hu : Forall (fun e => In (fst (fst e)) (prop_keys cs)) (cs_u cs).
    Hypothesis Hl : Forall (fun e => In (fst (fst e)) (prop_keys cs)) (cs_l cs).
    Hypothesis Hinit : nodupk ptr_eq (map fst init).
    Hypothesis Hlen : length (cs_h cs) = length (cs_f cs).

    Let vars := problem_vars t obj cs.
    Let n := length vars.

    Lemma vars_nodup : nodupk ptr_eq vars.
    Proof.
      unfold vars, problem_vars. eapply pnodup_perm; [apply Permutation_sym, sort_vars_perm|].
      eapply pnodup_perm; [apply Permutation_sym, ord_perm|]. apply var_set_nodup.
    Qed.
    Lemma vars_in v : In v vars <-> In v keys.
    Proof.
      assert (G : In v vars <-> In v (var_set (sc_prop obj) (cs_prop cs))).
      { unfold vars, problem_vars. split; intros Hv.
        - eapply Permutation_in; [apply ord_perm|]. eapply Permutation_in; [apply sort_vars_perm|]. eauto.
        - eapply Permutation_in; [apply Permutation_sym, sort_vars_perm|].
          eapply Permutation_in; [apply Permutation_sym, ord_perm|]. eauto. }
      rewrite G. clear G. unfold keys, prop_keys. rewrite in_app_iff. split; [apply var_set_in|].
      intros Hv. pose proof (var_set_has _ _ _ Hv) as X. apply existsb_exists in X as (w & Hw & E).
      assert (v = w); [|subst; auto]. apply Hcoh; auto.
      - unfold keys, prop_keys. rewrite in_app_iff. auto.
      - unfold keys, prop_keys. rewrite in_app_iff. apply var_set_in. auto.
    Qed.
    Lemma vars_obj v : In v (map fst (p_a (sc_prop obj))) -> In v vars.
    Proof. intros; apply vars_in; unfold keys; apply in_or_app; auto. Qed.
    Lemma vars_cs v : In v (prop_keys cs) -> In v vars.
    Proof. intros; apply vars_in; unfold keys; apply in_or_app; auto. Qed.
    Lemma vars_len : length (var_set (sc_prop obj) (cs_prop cs)) = n.
    Proof.
      unfold n, vars, problem_vars. symmetry. rewrite (Permutation_length (sort_vars_perm _)).
      apply Permutation_length, ord_perm.
    Qed.

    Definition p_cvec := map (lookup (fun _ => n0) (p_a (sc_prop obj))) vars.
    Definition p_amat := mk_coo (length (cs_b cs)) n (map (fun e => fst (fst e)) (cs_a cs))
                                (map (fun e => ix vars (snd (fst e))) (cs_a cs)) (map snd (cs_a cs)).
    Definition p_jmat := mk_coo (length (cs_f cs)) n (map (fun e => fst (fst e)) (cs_j cs))
                                (map (fun e => ix vars (snd (fst e))) (cs_j cs)) (repeat (@n0 T _) (length (cs_j cs))).
    Definition p_uvec := map (fun v => fst (bfold (fun val cur => nleb val cur) v (cs_u cs) (INF, None))) vars.
    Definition p_lvec := map (fun v => fst (bfold (fun val cur => nleb cur val) v (cs_l cs) (nneg INF, None))) vars.
    Definition p_pvec := map (@is_integer T) vars.
    Definition p_x0 := map (lookup (fun _ => n0) init) vars.
    Definition p_hphi := hess_of vars n (sc_hphi obj).
    Definition p_hs := map (hess_of vars n) (cs_h cs).
    Definition p_ev := model_eval (v2i_of vars) (sc_phi obj) (map (fun ge => ix vars (fst ge)) (sc_gphi obj))
                                  (map snd (sc_gphi obj)) (map snd (sc_hphi obj)) (cs_f cs)
                                  (map snd (cs_j cs)) (map (map snd) (cs_h cs)).
    Definition p_base_lin pv : minlp T :=
      made (coo_from_nnz n n 0) p_amat (cs_b cs) (coo_from_nnz 0 n 0) [] p_lvec p_uvec pv (Some p_x0)
           (linear_eval p_cvec).
    Definition p_base pv : minlp T :=
      made p_hphi p_amat (cs_b cs) p_jmat p_hs p_lvec p_uvec pv (Some p_x0) p_ev.
    Definition no_int : bool := negb (existsb is_integer vars).
    Definition p_linear : bool := p_affine (sc_prop obj) && (length (cs_f cs) =? 0).
    Definition p_problem : problem T :=
      if p_linear then
        if no_int then PLp (mk_lp (mk_milp p_cvec (p_base_lin (repeat false n))) (mk_nlp (p_base_lin (repeat false n))))
        else PMilp (mk_milp p_cvec (p_base_lin p_pvec))
      else if no_int then PNlp (mk_nlp (p_base (repeat false n)))
      else PMinlp (p_base p_pvec).

    Lemma repeat_map {A B} (x : A) (l : list B) : repeat x (length l) = map (fun _ => x) l.
    Proof. induction l; cbn; congruence. Qed.

    Lemma pmask_ok :
      foldR (fun (st : list bool * nat) vi =>
             if is_integer (fst vi) then
               rbind (vset (fst st) (snd vi) true) (fun p => Ok (p, S (snd st)))
             else Ok st) (ord 7 t (v2i_of vars)) (repeat false n, 0) =
      Ok (p_pvec, length (filter is_integer vars)).
    Proof.
      unfold n. rewrite repeat_map. rewrite (mask_ok vars vars_nodup).
      - f_equal. f_equal.
        + unfold p_pvec. apply map_ext_in. intros v Hv. cbn.
          rewrite (existsb_perm _ _ (v2i_of vars)) by apply ord_perm.
          destruct (is_integer v) eqn:E.
          * apply existsb_exists. exists (v, ix vars v). cbn. rewrite ptr_eq_refl, E. split; auto.
            apply enum_in. apply ix_nth; auto. apply vars_nodup.
          * apply not_true_is_false. intros X. apply existsb_exists in X as ([w i] & Hw & X). cbn in X.
            apply andb_true_iff in X as [X1 X2]. apply enum_in in Hw.
            pose proof (nodup_pos vars vars_nodup _ _ _ _ (ix_nth vars vars_nodup v Hv) Hw X1) as X3.
            subst i. rewrite (ix_nth vars vars_nodup v Hv) in Hw. congruence.
        + cbn [Nat.add]. transitivity (length (filter (fun vi => is_integer (fst vi)) (v2i_of vars))).
          * apply Permutation_length. clear.
            assert (G : forall l l' : list (node T * nat), Permutation l l' ->
              Permutation (filter (fun vi => is_integer (fst vi)) l) (filter (fun vi => is_integer (fst vi)) l')).
            { intros l0 l0' HP0. induction HP0 as [|a l l' HP IH|a b l|l l' l'' H1 IH1 H2 IH2]; cbn; auto.
              - destruct (is_integer (fst a)); [apply perm_skip|]; exact IH.
              - destruct (is_integer (fst a)), (is_integer (fst b)); try apply Permutation_refl. apply perm_swap.
              - exact (perm_trans IH1 IH2). }
            apply G. apply ord_perm.
          * rewrite <- (enum_keys vars) at 2. generalize (v2i_of vars) as l. clear. induction l as [|[v i] l IH]; cbn; auto.
            destruct (is_integer v); cbn; auto.
      - apply Forall_forall. intros [v i] Hv. cbn. apply enum_in.
        eapply Permutation_in; [apply ord_perm|exact Hv].
      - eapply pnodup_perm; [apply Permutation_map, Permutation_sym, ord_perm|]. rewrite enum_keys. apply vars_nodup.
    Qed.

    Lemma num_int_eqb : (length (filter is_integer vars) =? 0) = no_int.
    Proof.
      unfold no_int. generalize vars as l. clear. induction l as [|v l IH]; cbn; auto.
      destruct (is_integer v); cbn; auto.
    Qed.
    Lemma no_int_false : no_int = true -> p_pvec = repeat false n.
    Proof.
      unfold no_int, p_pvec, n. rewrite repeat_map. generalize vars as l. clear.
      induction l as [|v l IH]; cbn; auto. destruct (is_integer v); cbn; [discriminate|]. intros; f_equal; auto.
    Qed.

    Theorem build_ok :
      exists uc lc, build_problem t init obj cs =
        Ok (mk_std_prob p_problem (v2i_of vars) (enum (cs_ca cs)) (enum (cs_cj cs)) uc lc) /\
        (forall i v, nth_error vars i = Some v ->
           hget Nat.eqb i uc = snd (bfold (fun val cur => nleb val cur) v (cs_u cs) (INF, None))) /\
        nodupk Nat.eqb (map fst uc) /\ Forall (fun ic => fst ic < n) uc /\
        (forall i v, nth_error vars i = Some v ->
           hget Nat.eqb i lc = snd (bfold (fun val cur => nleb cur val) v (cs_l cs) (nneg INF, None))) /\
        nodupk Nat.eqb (map fst lc) /\ Forall (fun ic => fst ic < n) lc.
    Proof.
      pose proof vars_nodup as Hnd.
      assert (HF : forall {A} (f : A -> node T) l, Forall (fun a => In (f a) (prop_keys cs)) l ->
                                                   Forall (fun a => In (f a) vars) l).
      { intros A f l HF. eapply Forall_impl; [|exact HF]. intros a Hin. apply vars_cs; auto. }
      destruct (bounds_ok vars Hnd (fun val cur => nleb val cur) (cs_u cs) (fun _ => (INF, None)) [])
        as (uc & Euc & U1 & U2 & U3); [apply (HF _ (fun e => fst (fst e))); auto|auto|exact I|constructor|].
      destruct (bounds_ok vars Hnd (fun val cur => nleb cur val) (cs_l cs) (fun _ => (nneg INF, None)) [])
        as (lc & Elc & L1 & L2 & L3); [apply (HF _ (fun e => fst (fst e))); auto|auto|exact I|constructor|].
      exists uc, lc. split; [|tauto].
      unfold build_problem. rewrite vars_len.
      change (sort_vars (ord 5 t (var_set (sc_prop obj) (cs_prop cs)))) with vars.
      change (map (fun iv : nat * node T => (snd iv, fst iv)) (enum vars)) with (v2i_of vars). cbv zeta.
      rewrite (mapR_vidx vars Hnd (fun ge => fst ge)); [|eapply Forall_impl; [|exact Hg]; intros; apply vars_obj; auto].
      cbn [rbind].
      rewrite (hess_mat_ok vars Hnd); [|eapply Forall_impl; [|exact Hh]; intros a []; split; apply vars_obj; auto].
      cbn [rbind].
      replace (repeat (@n0 T _) n) with (map (fun _ : node T => @n0 T _) vars) by (unfold n; rewrite repeat_map; auto).
      rewrite (fill_ok vars Hnd).
      2: { eapply pnodup_perm; [apply Permutation_map, Permutation_sym, ord_perm|]. exact Hobj. }
      2: { eapply Permutation_Forall; [apply Permutation_sym, ord_perm|]. apply Forall_forall. intros [v x] Hv. cbn.
           apply vars_obj. apply (in_map fst) in Hv. exact Hv. }
      cbn [rbind].
      rewrite (mapR_vidx vars Hnd (fun e => snd (fst e))); [|apply (HF _ (fun e : nat * node T * T => snd (fst e))); auto].
      cbn [rbind]. unfold coo_new at 1. rewrite !map_length, Nat.eqb_refl. cbn [rassert rbind].
      rewrite (mapR_vidx vars Hnd (fun e => snd (fst e))); [|apply (HF _ (fun e : nat * node T * node T => snd (fst e))); auto].
      cbn [rbind]. unfold coo_new at 1. rewrite !map_length, repeat_length, Nat.eqb_refl. cbn [rassert rbind].
      assert (Ehs : mapR (hess_mat (v2i_of vars) n) (cs_h cs) = Ok (map (fun hs => (hess_of vars n hs, map snd hs)) (cs_h cs))).
      { clear -Hhs Hnd Hcoh. induction Hhs as [|hs l Hhs1 Hhs2 IH]; [reflexivity|]. cbn [mapR map].
        rewrite (hess_mat_ok vars Hnd).
        - cbn [rbind]. rewrite IH; auto.
        - eapply Forall_impl; [|exact Hhs1]. intros a []; split; apply vars_cs; auto. }
      rewrite Ehs. cbn [rbind].
      replace (repeat (@INF T _) n) with (map (fun _ : node T => @INF T _) vars) by (unfold n; rewrite repeat_map; auto).
      cbn [fst] in Euc, Elc. rewrite Euc. cbn [rbind].
      replace (repeat (nneg (@INF T _)) n) with (map (fun _ : node T => nneg (@INF T _)) vars) by (unfold n; rewrite repeat_map; auto).
      rewrite Elc. cbn [rbind]. rewrite pmask_ok. cbn [rbind].
      rewrite (x0_ok vars Hnd).
      2: { eapply pnodup_perm; [apply Permutation_map, Permutation_sym, ord_perm|]. exact Hinit. }
      cbn [rbind fst snd].
      replace (map (lookup (fun _ => n0) (ord 6 t (p_a (sc_prop obj)))) vars) with p_cvec.
      2: { unfold p_cvec. apply map_ext. intros v. unfold lookup.
           rewrite (pget_perm v (p_a (sc_prop obj)) (ord 6 t (p_a (sc_prop obj)))); auto.
           apply Permutation_sym, ord_perm. }
      replace (map (lookup (fun _ => n0) (ord 8 t init)) vars) with p_x0.
      2: { unfold p_x0. apply map_ext. intros v. unfold lookup.
           rewrite (pget_perm v init (ord 8 t init)); auto.
           apply Permutation_sym, ord_perm. }
      fold p_amat p_jmat p_uvec p_lvec p_hphi.
      assert (Lc : length p_cvec = n) by (unfold p_cvec, n; apply map_length).
      assert (Ll : length p_lvec = n) by (unfold p_lvec, n; apply map_length).
      assert (Lu : length p_uvec = n) by (unfold p_uvec, n; apply map_length).
      assert (Lp : length p_pvec = n) by (unfold p_pvec, n; apply map_length).
      rewrite !map_map. cbn [fst snd]. fold p_hs. fold p_ev.
      assert (Dl : forall pv, length pv = n -> dims_ok (coo_from_nnz n n 0) p_amat (cs_b cs) (coo_from_nnz 0 n 0) [] p_lvec p_uvec pv).
      { intros pv Hpv. unfold dims_ok. cbn. repeat split; auto; try contradiction. }
      assert (Hwf : Forall coo_wf p_hs).
      { unfold p_hs. apply Forall_forall. intros m Hm. apply in_map_iff in Hm as (hs & <- & _).
        unfold coo_wf, hess_of. cbn. rewrite repeat_length, !map_length. auto. }
      assert (Dn : forall pv, length pv = n -> dims_ok p_hphi p_amat (cs_b cs) p_jmat p_hs p_lvec p_uvec pv).
      { intros pv Hpv. unfold dims_ok. cbn. repeat split; auto.
        - unfold p_hs. rewrite map_length. auto.
        - unfold p_hs in H1. apply in_map_iff in H1 as (hs & <- & _). reflexivity.
        - unfold p_hs in H1. apply in_map_iff in H1 as (hs & <- & _). reflexivity. }
      rewrite num_int_eqb. unfold p_problem, p_linear.
      destruct (p_affine (sc_prop obj) && (length (cs_f cs) =? 0)); cbn [andb].
      - destruct no_int eqn:Eni; cbn [andb].
        + unfold lp_new. rewrite Lc. unfold milp_new, nlp_new. cbn [p_amat coo_cols].
          rewrite minlp_new_ok; [|constructor|apply Dl; apply repeat_length]. cbn [rbind].
          reflexivity.
        + replace (0 <? length (filter is_integer vars)) with true.
          2: { symmetry. apply Nat.ltb_lt. rewrite <- num_int_eqb in Eni. apply Nat.eqb_neq in Eni. lia. }
          unfold milp_new. cbn [p_amat coo_cols].
          rewrite minlp_new_ok; [|constructor|apply Dl; auto]. cbn [rbind]. reflexivity.
      - destruct no_int eqn:Eni; cbn [andb].
        + unfold nlp_new. cbn [p_amat coo_cols].
          rewrite minlp_new_ok; [|auto|apply Dn; apply repeat_length]. cbn [rbind]. reflexivity.
        + rewrite minlp_new_ok; [|auto|apply Dn; auto]. cbn [rbind]. reflexivity.
    Qed.
  End Main.
End Build.
