(** Path enumeration ([all_simple_paths]) and the shape of [derivatives]. *)
From Verif Require Import Base Num Node NodeDiff NodeInd MapProofs StdPropProofs.

Section Paths.
  Context {T : Type} `{Num T} `{HashOrd}.
  Notation path := (list (node T)).

  (** Every path from [n] down to the variable [v], last argument first. *)
  Fixpoint rpaths (v n : node T) : list path :=
    (if is_var n && ptr_eq n v then [[n]] else []) ++
    match n with
    | NConst _ _ | NVar _ _ _ => []
    | NAdd _ args => fold_left (fun acc c => map (cons n) (rpaths v c) ++ acc) args []
    | NCos _ a | NSin _ a => map (cons n) (rpaths v a)
    | NDiv _ a b | NMul _ a b => map (cons n) (rpaths v b) ++ map (cons n) (rpaths v a)
    end.

  Lemma fold_left_app_rev {A B} (f : A -> list B) l acc :
    fold_left (fun acc c => f c ++ acc) l acc = concat (map f (rev l)) ++ acc.
  Proof.
    revert acc; induction l as [|a l IH]; intros acc; cbn [fold_left rev]; auto.
    rewrite IH, map_app, concat_app. cbn. rewrite app_nil_r, <- app_assoc. auto.
  Qed.

  Lemma rpaths_eq v n :
    rpaths v n = (if is_var n && ptr_eq n v then [[n]] else []) ++
                 concat (map (fun c => map (cons n) (rpaths v c)) (rev (arguments n))).
  Proof.
    destruct n; cbn [rpaths arguments rev map concat app]; rewrite ?app_nil_r; auto.
    f_equal. rewrite fold_left_app_rev, app_nil_r. reflexivity.
  Qed.

  Lemma tsize_eq (n : node T) : tsize n = S (list_sum (map tsize (arguments n))).
  Proof.
    destruct n; cbn [tsize arguments map list_sum fold_right]; try lia. f_equal.
    induction args as [|a args IH]; cbn; auto.
  Qed.

  Lemma foldR_add_path nd path (L : list (node T)) (paths : pathmap T) :
    nodupk ptr_eq L ->
    (forall x, In x L -> exists l, hget ptr_eq x paths = Some l) ->
    exists ps',
      foldR (fun ps v =>
               if ptr_eq nd v then
                 match hget ptr_eq nd ps with
                 | Some l => Ok (hinsert ptr_eq nd (l ++ [path]) ps)
                 | None => Panic PUnwrap
                 end
               else Ok ps) L paths = Ok ps' /\
      map fst ps' = map fst paths /\
      forall v, hget ptr_eq v ps' =
        option_map (fun l => l ++ if existsb (ptr_eq nd) L && ptr_eq nd v then [path] else [])
                   (hget ptr_eq v paths).
  Proof.
    revert paths; induction L as [|x L IH]; intros paths Hnd Hk; cbn [foldR].
    - exists paths; repeat split; auto. intros v; cbn. destruct (hget _ _ _); cbn; auto.
      rewrite app_nil_r; auto.
    - cbn [nodupk] in Hnd. destruct Hnd as [Hx HL]. destruct (ptr_eq nd x) eqn:E.
      + destruct (Hk x (or_introl eq_refl)) as (l & Hl).
        rewrite (pget_eq nd x paths E), Hl. cbn [rbind].
        set (ps1 := hinsert ptr_eq nd (l ++ [path]) paths).
        destruct (IH ps1 HL) as (ps' & E1 & K1 & G1).
        { intros y Hy. destruct (ptr_eq y nd) eqn:Ey.
          - exists (l ++ [path]). apply hget_hinsert_same; eauto.
          - destruct (Hk y (or_intror Hy)) as (ly & Hly). exists ly.
            unfold ps1. rewrite hget_hinsert_other; eauto. }
        exists ps'. split; [exact E1|]. split.
        { rewrite K1. apply keys_hinsert_in; auto.
          destruct (existsb (ptr_eq nd) (map fst paths)) eqn:Ee; auto.
          apply hget_none in Ee. rewrite (pget_eq nd x paths E) in Ee; congruence. }
        intros v. rewrite G1. cbn [existsb]. rewrite E. cbn [orb].
        assert (Hno : existsb (ptr_eq nd) L = false).
        { rewrite <- Hx. clear -E. induction L as [|y L IH]; cbn; auto.
          rewrite IH. f_equal. apply (eqb_l ptr_eq); eauto. }
        rewrite Hno. cbn [andb]. unfold ps1. destruct (ptr_eq nd v) eqn:Ev.
        * rewrite pget_same by (rewrite ptr_eq_sym; auto).
          rewrite <- (pget_eq nd v paths Ev).
          rewrite (pget_eq nd x paths E), Hl. cbn.
          rewrite app_nil_r; auto.
        * rewrite pget_other by (rewrite ptr_eq_sym; auto). destruct (hget _ _ _); cbn; auto.
      + cbn [rbind]. destruct (IH paths HL) as (ps' & E1 & K1 & G1).
        { intros y Hy; apply Hk; cbn; auto. }
        exists ps'. split; [exact E1|]. split; auto. intros v. rewrite G1. cbn [existsb].
        rewrite E; auto.
  Qed.

  Lemma add_path_ok t varset path nd (paths : pathmap T) :
    nodupk ptr_eq varset ->
    (forall x, smem ptr_eq x varset = existsb (ptr_eq x) (map fst paths)) ->
    exists ps', add_path t varset path nd paths = Ok ps' /\
      map fst ps' = map fst paths /\
      forall v, hget ptr_eq v ps' =
        option_map (fun l => l ++ if is_var nd && ptr_eq nd v then [path] else [])
                   (hget ptr_eq v paths).
  Proof.
    intros Hnd Hk. unfold add_path. destruct (is_var nd) eqn:Hv.
    - destruct (foldR_add_path nd path (ord 1 t varset) paths) as (ps' & E & K & G).
      + eapply pnodup_perm; [apply Permutation_sym, ord_perm|auto].
      + intros x Hx. destruct (hget ptr_eq x paths) eqn:E; eauto.
        apply hget_none in E. rewrite <- Hk in E.
        assert (smem ptr_eq x varset = true); [|congruence].
        apply existsb_exists. exists x; split; auto. eapply Permutation_in; [apply ord_perm|]; eauto.
      + exists ps'. split; [exact E|]. split; auto. intros v. rewrite G. cbn [andb].
        destruct (hget ptr_eq v paths) eqn:Ev; cbn; auto. f_equal. f_equal.
        destruct (ptr_eq nd v) eqn:End; rewrite ?andb_false_r; auto.
        replace (existsb (ptr_eq nd) (ord 1 t varset)) with true; auto. symmetry.
        rewrite (existsb_perm (ptr_eq nd) _ _ (ord_perm _ 1 t varset)).
        fold (smem ptr_eq nd varset). rewrite Hk.
        destruct (existsb (ptr_eq nd) (map fst paths)) eqn:E2; auto.
        apply hget_none in E2.
        rewrite (pget_eq nd v paths End) in E2; congruence.
    - exists paths. repeat split; auto. intros v. cbn. destruct (hget _ _ _); cbn; auto.
      rewrite app_nil_r; auto.
  Qed.

  Definition whole (e : path * node T) : path := fst e ++ [snd e].
  Definition below (v : node T) (e : path * node T) : list path :=
    map (app (fst e)) (rpaths v (snd e)).

  Lemma push_args (e : path * node T) wq :
    fold_left (fun q n => (whole e ++ [n]) :: q) (arguments (snd e)) (map whole wq) =
    map whole (rev (map (fun c => (whole e, c)) (arguments (snd e))) ++ wq).
  Proof.
    generalize (arguments (snd e)) as l. intros l; revert wq; induction l as [|a l IH]; intros wq.
    - reflexivity.
    - cbn [fold_left map rev]. change ((whole e ++ [a]) :: map whole wq) with (map whole ((whole e, a) :: wq)).
      rewrite IH, <- app_assoc. reflexivity.
  Qed.

  Lemma below_args v e :
    below v e = (if is_var (snd e) && ptr_eq (snd e) v then [whole e] else []) ++
      concat (map (below v) (rev (map (fun c => (whole e, c)) (arguments (snd e))))).
  Proof.
    unfold below at 1. rewrite rpaths_eq, map_app. f_equal.
    - destruct (_ && _); reflexivity.
    - rewrite <- map_rev, map_map, concat_map, map_map. f_equal. apply map_ext. intros c.
      unfold below; cbn [fst snd]. rewrite map_map. apply map_ext. intros p.
      unfold whole. rewrite <- app_assoc. reflexivity.
  Qed.

  Lemma paths_loop_ok t varset :
    nodupk ptr_eq varset ->
    forall fuel wq (paths : pathmap T),
    (forall x, smem ptr_eq x varset = existsb (ptr_eq x) (map fst paths)) ->
    list_sum (map (fun e => tsize (snd e)) wq) < fuel ->
    exists ps', paths_loop fuel t varset (map whole wq) paths = Ok ps' /\
      map fst ps' = map fst paths /\
      forall v, hget ptr_eq v ps' =
        option_map (fun l => l ++ concat (map (below v) wq)) (hget ptr_eq v paths).
  Proof.
    intros Hnd. induction fuel as [|fuel IH]; intros wq paths Hk Hf; [lia|].
    destruct wq as [|e wq]; cbn [map paths_loop].
    - exists paths. repeat split; auto. intros v. destruct (hget _ _ _); cbn; auto.
      rewrite app_nil_r; auto.
    - unfold whole at 1. rewrite rev_app_distr. cbn [rev app].
      destruct (add_path_ok t varset (whole e) (snd e) paths Hnd Hk) as (ps1 & E1 & K1 & G1).
      rewrite E1. cbn [rbind]. rewrite push_args.
      destruct (IH (rev (map (fun c => (whole e, c)) (arguments (snd e))) ++ wq) ps1) as (ps' & E2 & K2 & G2).
      + intros x. rewrite K1. apply Hk.
      + change (list_sum (map (fun e => tsize (snd e)) (e :: wq)))
          with (tsize (snd e) + list_sum (map (fun e => tsize (snd e)) wq)) in Hf.
        rewrite tsize_eq in Hf. rewrite map_app, list_sum_app, <- map_rev, map_map.
        assert (Hr : forall l : list (node T), list_sum (map (fun x => tsize (snd (whole e, x))) (rev l))
                       = list_sum (map tsize l)).
        { clear. induction l as [|a l IHl]; auto.
          cbn [rev]. rewrite map_app, list_sum_app, IHl. unfold list_sum; cbn [map fold_right snd]. lia. }
        rewrite Hr. lia.
      + exists ps'. split; [exact E2|]. split; [congruence|].
        intros v. rewrite G2, G1. destruct (hget ptr_eq v paths); cbn; auto. f_equal.
        rewrite below_args, map_app, concat_app, <- !app_assoc. reflexivity.
  Qed.

  Lemma init_paths (L : list (node T)) (m : pathmap T) v :
    hget ptr_eq v (fold_left (fun m v => hinsert ptr_eq v [] m) L m) =
    if smem ptr_eq v L then Some [] else hget ptr_eq v m.
  Proof.
    revert m; induction L as [|x L IH]; intros m; cbn [fold_left]; auto.
    rewrite IH. unfold smem; cbn [existsb]. destruct (existsb (ptr_eq v) L); rewrite ?orb_true_r; auto.
    destruct (ptr_eq v x) eqn:E; cbn.
    - apply hget_hinsert_same; eauto.
    - apply hget_hinsert_other; eauto.
  Qed.

  Lemma init_keys (L : list (node T)) (m : pathmap T) :
    map fst (fold_left (fun m v => hinsert ptr_eq v [] m) L m) = sextend ptr_eq (map fst m) L.
  Proof.
    unfold sextend. revert m; induction L as [|x L IH]; intros m; cbn [fold_left]; auto.
    rewrite IH, keys_hinsert; auto.
  Qed.

  Lemma sextend_nodup_id (L s : list (node T)) : nodupk ptr_eq (s ++ L) -> sextend ptr_eq s L = s ++ L.
  Proof.
    unfold sextend. revert s; induction L as [|x L IH]; intros s Hn; cbn [fold_left].
    - rewrite app_nil_r; auto.
    - assert (E : smem ptr_eq x s = false).
      { clear -Hn. unfold smem. induction s as [|y s IH]; cbn; auto.
        cbn in Hn. destruct Hn as [H1 H2]. rewrite existsb_app in H1. cbn in H1.
        apply orb_false_iff in H1 as [_ H1]. apply orb_false_iff in H1 as [H1 _].
        rewrite ptr_eq_sym, H1; cbn; auto. }
      unfold sadd; rewrite E. rewrite IH, <- app_assoc; auto. rewrite <- app_assoc; auto.
  Qed.

  (** Path enumeration terminates, never panics on variables, and is [rpaths]. *)
  Theorem all_simple_paths_ok t self vars :
    forallb is_var vars = true ->
    exists ps, all_simple_paths t self vars = Ok ps /\
      map fst ps = ord 0 t (sextend ptr_eq [] vars) /\
      forall v, hget ptr_eq v ps = if smem ptr_eq v vars then Some (rpaths v self) else None.
  Proof.
    intros Hv. unfold all_simple_paths, check_vars. rewrite Hv. cbn [rbind].
    set (vs := sextend ptr_eq [] vars).
    assert (Hnd : nodupk ptr_eq vs) by (apply pnodup_sextend; exact I).
    assert (Hnd' : nodupk ptr_eq (ord 0 t vs)).
    { eapply pnodup_perm; [apply Permutation_sym, ord_perm|auto]. }
    set (p0 := fold_left (fun m v => hinsert ptr_eq v [] m) (ord 0 t vs) []).
    assert (K0 : map fst p0 = ord 0 t vs).
    { unfold p0. rewrite init_keys. cbn [map]. apply sextend_nodup_id; auto. }
    destruct (paths_loop_ok t vs Hnd (S (tsize self)) [([], self)] p0) as (ps & E & K & G).
    - intros x. rewrite K0. symmetry. apply existsb_perm, ord_perm.
    - cbn. lia.
    - exists ps. split; [exact E|]. split; [congruence|]. intros v. rewrite G.
      unfold p0. rewrite init_paths. cbn [hget]. unfold smem at 1.
      rewrite (existsb_perm (ptr_eq v) _ _ (ord_perm _ 0 t vs)). fold (smem ptr_eq v vs).
      unfold vs. rewrite psmem_sextend. cbn [smem existsb orb].
      destruct (smem ptr_eq v vars); cbn; auto. rewrite app_nil_r. unfold below; cbn.
      f_equal. apply map_id.
  Qed.

  Theorem all_simple_paths_nonvar t (self : node T) vars :
    forallb is_var vars = false -> all_simple_paths t self vars = Panic PVarExpected.
  Proof. intros Hv. unfold all_simple_paths, check_vars. rewrite Hv. reflexivity. Qed.

  (** *** [rpaths] and occurrences.

      A position is the list of argument numbers leading to an occurrence. *)
  Fixpoint walk (n : node T) (pos : list nat) : option path :=
    match pos with
    | [] => Some [n]
    | i :: pos' =>
      match nth_error (arguments n) i with
      | Some c => option_map (cons n) (walk c pos')
      | None => None
      end
    end.

  Definition occ_positions (v : node T) : node T -> list (list nat) -> list path -> Prop :=
    fun n L ps =>
      NoDup L /\
      (forall pos, In pos L <-> exists p w, walk n pos = Some (p ++ [w]) /\ is_var w = true /\ ptr_eq w v = true) /\
      map Some ps = map (walk n) L.

  (** Concatenation of the positions below each argument, last argument first. *)
  Lemma args_positions v n (args : list (node T)) (off : nat) :
    (forall i c, nth_error args i = Some c -> nth_error (arguments n) (off + i) = Some c) ->
    (forall c, In c args -> exists L, occ_positions v c L (rpaths v c)) ->
    exists L,
      NoDup L /\
      (forall pos, In pos L <-> exists i c pos', nth_error args i = Some c /\ pos = (off + i) :: pos' /\
           exists p w, walk c pos' = Some (p ++ [w]) /\ is_var w = true /\ ptr_eq w v = true) /\
      map Some (concat (map (fun c => map (cons n) (rpaths v c)) (rev args))) = map (walk n) L.
  Proof.
    revert off; induction args as [|a args IH]; intros off Harg Hc.
    - exists []. split; [constructor|]. split; [|reflexivity].
      intros pos; split; [intros []|]. intros (i & c & pos' & Hi & _). destruct i; discriminate.
    - destruct (IH (S off)) as (L2 & N2 & I2 & E2).
      { intros i c Hi. specialize (Harg (S i) c Hi). rewrite Nat.add_succ_r in Harg. exact Harg. }
      { intros c Hin; apply Hc; cbn; auto. }
      destruct (Hc a (or_introl eq_refl)) as (L1 & N1 & I1 & E1).
      exists (L2 ++ map (cons off) L1). split; [|split].
      + apply NoDup_app_intro.
        * exact N2.
        * apply FinFun.Injective_map_NoDup; [|exact N1]. intros x y Exy; congruence.
        * intros pos Hp Hq. apply I2 in Hp as (i & c & pos' & _ & -> & _).
          apply in_map_iff in Hq as (q & Eq & _). inversion Eq; lia.
      + intros pos; rewrite in_app_iff; split.
        * intros [Hp|Hp].
          -- apply I2 in Hp as (i & c & pos' & Hi & -> & Hw). exists (S i), c, pos'.
             split; [exact Hi|]. split; [f_equal; lia|exact Hw].
          -- apply in_map_iff in Hp as (q & <- & Hq). apply I1 in Hq.
             exists 0, a, q. split; [reflexivity|]. split; [f_equal; lia|exact Hq].
        * intros (i & c & pos' & Hi & -> & Hw). destruct i as [|i].
          -- right. cbn in Hi. inversion Hi; subst. apply in_map_iff. exists pos'.
             split; [f_equal; lia|]. apply I1; auto.
          -- left. apply I2. exists i, c, pos'. split; [exact Hi|]. split; [f_equal; lia|exact Hw].
      + cbn [rev]. rewrite map_app, concat_app, !map_app, E2. f_equal. cbn [map concat].
        rewrite app_nil_r, !map_map.
        assert (Hoff : nth_error (arguments n) off = Some a).
        { specialize (Harg 0 a eq_refl). rewrite Nat.add_0_r in Harg. exact Harg. }
        cbn [walk]. rewrite Hoff.
        rewrite <- (map_map Some (option_map (cons n))), E1, map_map. reflexivity.
  Qed.

  Theorem rpaths_positions v n : exists L, occ_positions v n L (rpaths v n).
  Proof.
    induction n as [n IH] using node_ind_args.
    destruct (args_positions v n (arguments n) 0) as (L & NL & IL & EL).
    { intros i c Hi; exact Hi. }
    { exact IH. }
    unfold occ_positions. rewrite rpaths_eq.
    destruct (is_var n && ptr_eq n v) eqn:En.
    - apply andb_true_iff in En as [Hv Hp].
      assert (arguments n = []) as Ha by (destruct n; try discriminate; reflexivity).
      exists ([] :: L). split; [|split].
      + constructor; auto. intros Hin. apply IL in Hin as (i & c & pos' & _ & E & _). discriminate.
      + intros pos; split.
        * intros [<-|Hin].
          -- exists [], n. auto.
          -- apply IL in Hin as (i & c & pos' & Hi & _). rewrite Ha in Hi. destruct i; discriminate.
        * intros (p & w & Hw & Hv' & Hp'). destruct pos as [|i pos]; [left; reflexivity|].
          cbn in Hw. rewrite Ha in Hw. destruct i; discriminate.
      + rewrite map_app. cbn [map]. rewrite EL. reflexivity.
    - exists L. split; [exact NL|]. split.
      + intros pos; rewrite IL; split.
        * intros (i & c & pos' & Hi & -> & p & w & Hw & Hv' & Hp'). exists (n :: p), w.
          cbn. rewrite Hi, Hw. auto.
        * intros (p & w & Hw & Hv' & Hp'). destruct pos as [|i pos].
          -- cbn in Hw. destruct p as [|? [|? ?]]; inversion Hw; subst. rewrite Hv', Hp' in En. discriminate.
          -- cbn in Hw. destruct (nth_error (arguments n) i) as [c|] eqn:Ei; [|discriminate].
             destruct (walk c pos) as [q|] eqn:Eq; [|discriminate].
             cbn in Hw. inversion Hw; subst. exists i, c, pos. split; auto. split; auto.
             destruct p as [|x p].
             ++ cbn in *. inversion H2; subst. destruct pos; cbn in Eq; [discriminate|].
                destruct (nth_error (arguments c) n); [|discriminate]. destruct (walk n0 pos); discriminate.
             ++ cbn in H2. inversion H2; subst. exists p, w. auto.
      + cbn [app]. exact EL.
  Qed.

  (** *** [derivatives]: one path sum per requested variable. *)
  Local Open Scope m_scope.

  Definition dfold (paths : pathmap T) :=
    fun derivs v =>
      ps <- lift (unwrap (hget ptr_eq v paths)) ;;
      d <- path_sum ps ;;
      ret (hinsert ptr_eq v d derivs).

  Lemma dfold_ok (paths : pathmap T) L derivs k ds k' :
    (forall a ps k d k', path_sum (T := T) ps k = Ok (d, k') -> a = k -> k <= k') ->
    foldM (dfold paths) L derivs k = Ok (ds, k') ->
    nodupk ptr_eq (map fst derivs ++ L) ->
    k <= k' /\ map fst ds = map fst derivs ++ L /\
    (forall v, existsb (ptr_eq v) L = false -> hget ptr_eq v ds = hget ptr_eq v derivs) /\
    (forall v, In v L -> exists ps d k1 k2, hget ptr_eq v paths = Some ps /\
        hget ptr_eq v ds = Some d /\ path_sum ps k1 = Ok (d, k2) /\ k <= k1 /\ k1 <= k2 /\ k2 <= k').
  Proof.
    intros Hmono. revert derivs k; induction L as [|x L IH]; intros derivs k E Hn.
    - inversion E; subst. rewrite app_nil_r. repeat split; auto. intros v [].
    - apply foldM_cons_ok in E as (s & k1 & E1 & E2). unfold dfold in E1.
      apply bind_ok in E1 as (ps & k2 & E1 & E3). apply lift_ok in E1 as [E1 ->].
      apply bind_ok in E3 as (d & k3 & E3 & E4). inversion E4; subst. clear E4.
      unfold unwrap in E1. destruct (hget ptr_eq x paths) eqn:Ex; [|discriminate].
      inversion E1; subst. clear E1.
      assert (Hk : k <= k1) by (eapply Hmono; eauto).
      assert (Hxn : existsb (ptr_eq x) (map fst derivs) = false /\ existsb (ptr_eq x) L = false).
      { clear -Hn. induction (map fst derivs) as [|y s IHs]; cbn in *.
        - intuition.
        - destruct Hn as [H1 H2]. rewrite existsb_app in H1. cbn in H1.
          apply orb_false_iff in H1 as [_ H1]. apply orb_false_iff in H1 as [H1 _].
          rewrite ptr_eq_sym, H1. cbn. auto. }
      destruct Hxn as [Hx1 Hx2].
      destruct (IH _ _ E2) as (Hk1 & K & Gno & Gyes).
      { rewrite keys_hinsert, Hx1. rewrite <- app_assoc. exact Hn. }
      split; [lia|]. split; [|split].
      + rewrite K, keys_hinsert, Hx1, <- app_assoc by auto. reflexivity.
      + intros v Hv. cbn in Hv. apply orb_false_iff in Hv as [Hv1 Hv2].
        rewrite Gno by auto. apply hget_hinsert_other; eauto.
      + intros v [<-|Hv].
        * exists ps, d, k, k1. rewrite Gno by auto.
          rewrite hget_hinsert_same; eauto. repeat split; auto.
        * destruct (Gyes v Hv) as (ps' & d' & ka & kb & H1 & H2 & H3 & H4 & H5 & H6).
          exists ps', d', ka, kb. repeat split; auto. lia.
  Qed.
End Paths.
