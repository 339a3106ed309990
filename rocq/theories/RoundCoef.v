(** Proofs about rounding errors of the coefficients that the code extracts from expressions. *)
From Verif Require Import Base Num Node NodeInd NodeStd ExprSpec MapProofs StdPropProofs RoundSpec FmtProofs FloatProofs FloatOps RoundOps RoundProofs.
From Coq Require Import Reals Lra Lia Floats.SpecFloat.
Local Open Scope R_scope.

(** *** Looking up in the merged maps *)
Section Maps.
  Context {T : Type} `{Num T}.
  Definition comb (a b : option T) : option T :=
    match a, b with Some x, Some y => Some (nadd x y) | None, o => o | o, None => o end.
  Lemma comb_none o : comb o None = o. Proof. destruct o; reflexivity. Qed.
  Notation nodupv := (nodupk ptr_eq).
  Lemma hget_cons (k v : node T) (x : T) l : hget ptr_eq k ((v, x) :: l) = if ptr_eq k v then Some x else hget ptr_eq k l.
  Proof. reflexivity. Qed.
  Lemma hget_merge k (l a : list (node T * T)) : nodupv (map fst l) ->
    hget ptr_eq k (fold_left merge_add l a) = comb (hget ptr_eq k a) (hget ptr_eq k l).
  Proof.
    revert a. induction l as [|[v x] l IH]; intros a Hn; cbn [fold_left]; [cbn; rewrite comb_none; reflexivity|].
    cbn [map fst nodupk] in Hn. destruct Hn as [Hv Hn]. rewrite IH by exact Hn. rewrite hget_cons.
    assert (Hm : hget ptr_eq k (merge_add a (v, x)) = if ptr_eq k v then comb (hget ptr_eq k a) (Some x) else hget ptr_eq k a).
    { unfold merge_add. cbn [fst snd]. destruct (ptr_eq k v) eqn:E.
      - rewrite (hget_eqb ptr_eq ptr_eq_sym ptr_eq_trans k v a E).
        destruct (hget ptr_eq v a) eqn:Ea; rewrite (hget_hinsert_same ptr_eq ptr_eq_sym ptr_eq_trans) by exact E; reflexivity.
      - destruct (hget ptr_eq v a); rewrite (hget_hinsert_other ptr_eq ptr_eq_sym ptr_eq_trans) by exact E; reflexivity. }
    rewrite Hm. destruct (ptr_eq k v) eqn:E; [|reflexivity].
    assert (Hl : hget ptr_eq k l = None).
    { apply hget_none. rewrite <- Hv. clear -E. induction (map fst l) as [|w ws IH]; cbn; [reflexivity|]. rewrite IH. f_equal. apply (eqb_l ptr_eq ptr_eq_sym ptr_eq_trans). exact E. }
    rewrite Hl. apply comb_none.
  Qed.
  Lemma hget_insert k (g : T -> T) (l a : list (node T * T)) : nodupv (map fst l) ->
    hget ptr_eq k (fold_left (fun a kv => hinsert ptr_eq (fst kv) (g (snd kv)) a) l a) =
    match hget ptr_eq k l with Some x => Some (g x) | None => hget ptr_eq k a end.
  Proof.
    revert a. induction l as [|[v x] l IH]; intros a Hn; cbn [fold_left]; [reflexivity|].
    cbn [map fst nodupk] in Hn. destruct Hn as [Hv Hn]. rewrite IH by exact Hn. rewrite hget_cons. cbn [fst snd]. destruct (ptr_eq k v) eqn:E.
    - assert (Hl : hget ptr_eq k l = None).
      { apply hget_none. rewrite <- Hv. clear -E. induction (map fst l) as [|w ws IH]; cbn; [reflexivity|]. rewrite IH. f_equal. apply (eqb_l ptr_eq ptr_eq_sym ptr_eq_trans). exact E. }
      rewrite Hl. apply (hget_hinsert_same ptr_eq ptr_eq_sym ptr_eq_trans). exact E.
    - destruct (hget ptr_eq k l); [reflexivity|]. apply (hget_hinsert_other ptr_eq ptr_eq_sym ptr_eq_trans). exact E.
  Qed.
  Variable vc : node T.
  Definition coefo (n : node T) : option T := hget ptr_eq vc (p_a (std_properties n)).
  Lemma coefo_add i l : coefo (NAdd i l) = fold_left (fun a x => comb a (coefo x)) l None.
  Proof.
    unfold coefo. cbn [std_properties].
    enough (G : forall acc, hget ptr_eq vc (p_a (fold_left (fun acc x => let p := std_properties x in
        mk_std_prop (p_affine acc && p_affine p) (fold_left merge_add (p_a p) (p_a acc)) (nadd (p_b acc) (p_b p))) l acc)) =
      fold_left (fun a x => comb a (hget ptr_eq vc (p_a (std_properties x)))) l (hget ptr_eq vc (p_a acc))) by apply G.
    induction l as [|x l IH]; intros acc; cbn [fold_left]; [reflexivity|]. rewrite IH. cbn [p_a]. rewrite hget_merge by apply keys_nodup. reflexivity.
  Qed.
  Lemma coefo_mul_l i j v y : coefo (NMul i (NConst j v) y) = option_map (fun x => nmul x v) (coefo y).
  Proof.
    unfold coefo. cbn [std_properties p_a p_b fold_left]. rewrite (hget_insert vc (fun x => nmul x v)) by apply keys_nodup. cbn [hget].
    destruct (hget ptr_eq vc (p_a (std_properties y))); reflexivity.
  Qed.
  Lemma coefo_mul_r i x j v : coefo (NMul i x (NConst j v)) = option_map (fun y => nmul y v) (coefo x).
  Proof.
    unfold coefo. cbn [std_properties p_a p_b fold_left]. rewrite (hget_insert vc (fun x => nmul x v)) by apply keys_nodup. cbn [hget].
    destruct (hget ptr_eq vc (p_a (std_properties x))); reflexivity.
  Qed.
  Lemma coefo_div i x j v : coefo (NDiv i x (NConst j v)) = option_map (fun y => ndiv y v) (coefo x).
  Proof.
    unfold coefo. cbn [std_properties p_a p_b fold_left]. rewrite (hget_insert vc (fun x => ndiv x v)) by apply keys_nodup. cbn [hget].
    destruct (hget ptr_eq vc (p_a (std_properties x))); reflexivity.
  Qed.
End Maps.

Section Coef.
  Variables fsin fcos : F -> F.
  Notation NF := (NumF fsin fcos).
  Local Instance num_f : Num F := NF.
  Variable vc : node F.
  Definition getd (o : option F) : F := match o with Some x => x | None => flit 0 end.
  (** The coefficient of the variable [vc]; zero if there is none. *)
  Definition cv (n : node F) : F := getd (coefo vc n).
  Lemma cv_const i v : cv (NConst i v) = flit 0. Proof. reflexivity. Qed.

  Lemma comb_sv o o' f m g l k : sv (getd o) f m k -> sv (getd o') g l k -> sv (getd (comb o o')) (f + g) (m + l) (S k).
  Proof.
    intros Sx Sy. destruct o as [x|], o' as [y|]; cbn [comb getd] in *.
    - apply sv_add; assumption.
    - eapply sv_absorb; [exact Sx|exact Sy|apply fin_flit0|reflexivity|lia|lia].
    - rewrite Rplus_comm, (Rplus_comm m). eapply sv_absorb; [exact Sy|exact Sx|apply fin_flit0|reflexivity|lia|lia].
    - eapply sv_absorb; [exact Sx|exact Sy|apply fin_flit0|reflexivity|lia|lia].
  Qed.
  (** A value that stands for zero, times anything. *)
  Lemma zero_by s fs ms ks f m k : sv s fs ms ks -> sv (flit 0) f m k -> sv (flit 0) (fs * f) (ms * m) k.
  Proof. intros Ss Sz. rewrite Rmult_comm, (Rmult_comm ms). eapply sv_zero; [exact Sz|apply fin_flit0|reflexivity|exact Ss]. Qed.

  Definition Pc (K : nat) (x : node F) (e : R * R) : Prop := notsum x /\ sv (cv x) (fst e) (snd e) K.
  Lemma Pc_weak K K' x e : Pc K x e -> (K <= K')%nat -> Pc K' x e.
  Proof. intros [H1 H2] Hk. split; [exact H1|]. eapply sv_weak; [exact H2|lra|exact Hk]. Qed.
  Lemma PcF_weak K K' l es : Forall2 (Pc K) l es -> (K <= K')%nat -> Forall2 (Pc K') l es.
  Proof. intros Hf Hk. induction Hf as [|x e l es Hx Hf IH]; constructor; eauto using Pc_weak. Qed.

  (** The coefficient in [n] stands for [f], of magnitude [m], after [k] roundings, and so do
      those in its terms. *)
  Definition gc (n : node F) (f m : R) (k : nat) : Prop :=
    exists K es, terms n <> [] /\ Forall2 (Pc K) (terms n) es /\ f = tot (map fst es) /\ tot (map snd es) <= m /\ (K + length (terms n) <= S k)%nat.
  Lemma gc_weak n f m k m' k' : gc n f m k -> m <= m' -> (k <= k')%nat -> gc n f m' k'.
  Proof. intros (K & es & H1 & H2 & H3 & H4 & H5) Hm Hk. exists K, es. repeat split; auto; [lra|lia]. Qed.
  Lemma sv_gc n f m k : notsum n -> sv (cv n) f m k -> gc n f m k.
  Proof.
    intros Hn Hs. exists k, [(f, m)]. rewrite (notsum_terms n Hn). repeat split; [discriminate| |cbn; lra|cbn; lra|cbn; lia].
    constructor; [split; auto|constructor].
  Qed.
  Lemma csum_sv K l es : Forall2 (Pc K) l es -> forall acc f m k, sv (getd acc) f m k -> (K <= k)%nat ->
    sv (getd (fold_left (fun a x => comb a (coefo vc x)) l acc)) (f + tot (map fst es)) (m + tot (map snd es)) (k + length l).
  Proof.
    intros Hf. induction Hf as [|x e l es [_ Hx] Hf IH]; intros acc f m k Ha Hk.
    - cbn. rewrite !Rplus_0_r, Nat.add_0_r. exact Ha.
    - cbn [fold_left length map tot]. replace (k + S (length l))%nat with (S k + length l)%nat by lia.
      rewrite <- !Rplus_assoc. apply IH; [|lia]. apply comb_sv; [exact Ha|]. eapply sv_weak; [exact Hx|lra|exact Hk].
  Qed.
  Lemma gc_sv n f m k : gc n f m k -> sv (cv n) f m k.
  Proof.
    intros (K & es & H1 & H2 & -> & H4 & H5).
    assert (G : sv (cv n) (tot (map fst es)) (tot (map snd es)) k).
    { destruct n as [i v|i s kd|i l|i a|i a b|i a b|i a]; cbn [terms length] in *;
        try (inversion H2 as [|x e l' es' [Hn Hx] Hr]; subst; inversion Hr; subst; cbn [map tot]; rewrite !Rplus_0_r;
             eapply sv_weak; [exact Hx|lra|lia]).
      destruct l as [|x l]; [congruence|]. inversion H2 as [|x' e l' es' [Hn Hx] Hr]; subst. unfold cv. rewrite coefo_add. cbn [fold_left comb map tot].
      eapply sv_weak; [eapply (csum_sv K l es' Hr _ (fst e) (snd e) K); [exact Hx|lia]|lra|cbn [length] in H5; lia]. }
    eapply sv_weak; [exact G|exact H4|lia].
  Qed.
  Lemma gc_const i v f m k : gc (NConst i v) f m k -> sv (flit 0) f m k.
  Proof. apply gc_sv. Qed.
  Lemma const_gc i v : gc (NConst i v) 0 0 0.
  Proof. apply sv_gc; [exact I|]. rewrite cv_const. constructor; [apply fin_flit0|rewrite Rabs_R0; lra|]. intros _. rewrite fval_flit0, Rminus_0_r, Rabs_R0. lra. Qed.

  (** **** Sums *)
  Definition cstc (K : nat) (c : F) (cf cm : R) (nc : nat) : Prop := sv (flit 0) cf cm K /\ (nc = O -> c = flit 0).
  Lemma cinner K l es : Forall2 (Pc K) l es -> forall c args es0 nc cf cm,
    Forall2 (Pc K) args es0 -> cstc K c cf cm nc ->
    exists es1 cf' cm' nc', Forall2 (Pc K) (snd (fold_left add_inner l (c, args))) es1 /\ cstc K (fst (fold_left add_inner l (c, args))) cf' cm' nc' /\
      cf' + tot (map fst es1) = cf + tot (map fst es0) + tot (map fst es) /\
      cm' + tot (map snd es1) = cm + tot (map snd es0) + tot (map snd es) /\
      (length (snd (fold_left add_inner l (c, args))) + nc' = length args + nc + length l)%nat.
  Proof.
    intros Hf. induction Hf as [|x e l es Hx Hf IH]; intros c args es0 nc cf cm Ha Hc.
    - exists es0, cf, cm, nc. cbn. repeat split; auto; try apply Hc; lra || lia.
    - assert (Oth : add_inner (c, args) x = (c, args ++ [x]) \/ exists i v, x = NConst i v) by (destruct x; eauto).
      destruct Oth as [Eo|(i & v & ->)].
      + cbn [fold_left]. rewrite Eo. destruct (IH c (args ++ [x]) (es0 ++ [e]) nc cf cm) as (es1 & cf' & cm' & nc' & G1 & G2 & G3 & G4 & G5).
        * apply Forall2_app; [exact Ha|]. constructor; [exact Hx|constructor].
        * exact Hc.
        * exists es1, cf', cm', nc'. rewrite !map_app, !tot_app in *. cbn [map tot] in *. rewrite app_length in G5. cbn [length] in *.
          repeat split; auto; try apply G2; lra || lia.
      + destruct Hx as [_ Hx]. rewrite cv_const in Hx.
        destruct (IH (nadd c v) args es0 (S nc) (cf + fst e) (cm + snd e)) as (es1 & cf' & cm' & nc' & G1 & G2 & G3 & G4 & G5).
        * exact Ha.
        * split; [|discriminate]. destruct Hc as [Hc _]. eapply sv_absorb; [exact Hc|exact Hx|apply fin_flit0|reflexivity|lia|lia].
        * exists es1, cf', cm', nc'. cbn [fold_left add_inner length map tot] in *. repeat split; auto; try apply G2; lra || lia.
  Qed.
  Lemma cabsorb_first K l es cf cm j : Forall2 (Pc K) l es -> l <> [] -> sv (flit 0) cf cm j ->
    exists es', Forall2 (Pc (Nat.max K j)) l es' /\ tot (map fst es') = cf + tot (map fst es) /\ tot (map snd es') = cm + tot (map snd es).
  Proof.
    intros Hf Hn Sc. destruct Hf as [|x e l es [Nx Hx] Hf]; [congruence|].
    exists ((fst e + cf, snd e + cm) :: es). split; [|cbn; split; lra].
    constructor; [|apply (PcF_weak K); [exact Hf|lia]]. split; [exact Nx|]. cbn [fst snd]. eapply sv_absorb; [exact Hx|exact Sc|apply fin_flit0|reflexivity|lia|lia].
  Qed.
  Lemma sv0 : sv (flit 0) 0 0 0.
  Proof. constructor; [apply fin_flit0|rewrite Rabs_R0; lra|]. intros _. rewrite fval_flit0, Rminus_0_r, Rabs_R0. lra. Qed.
  Lemma cadd_outer st a : add_outer (T := F) st a = fold_left add_inner (terms a) st.
  Proof. destruct st as [c args], a; reflexivity. Qed.
  Lemma add_other_gc a b f m k g l j n st st' : gc a f m k -> gc b g l j -> add_other a b st = Ok (n, st') -> gc n (f + g) (m + l) (k + j + 1).
  Proof.
    intros (Ka & ea & A1 & A2 & -> & A4 & A5) (Kb & eb & B1 & B2 & -> & B4 & B5) E.
    set (K := Nat.max Ka Kb). assert (Hall : Forall2 (Pc K) (terms a ++ terms b) (ea ++ eb)).
    { apply Forall2_app; [apply (PcF_weak Ka)|apply (PcF_weak Kb)]; auto; unfold K; lia. }
    destruct (cinner K _ _ Hall (flit 0) [] [] 0 0 0 (Forall2_nil _)) as (es1 & cf & cm & nc & G1 & [G2 G2'] & G3 & G4 & G5).
    { split; [|reflexivity]. eapply sv_weak; [apply sv0|lra|lia]. }
    unfold add_other in E. cbn [fold_left] in E. rewrite !cadd_outer, <- fold_left_app in E.
    change (@n0 F num_f) with (flit 0) in E.
    destruct (fold_left add_inner (terms a ++ terms b) (flit 0, [])) as [c args]. cbn [fst snd] in *.
    rewrite app_length in G5. cbn [length] in G5. rewrite !map_app, !tot_app in G3, G4. cbn [map tot] in G3, G4.
    assert (HK : (K + (length (terms a) + length (terms b)) <= S (k + j + 1))%nat) by (unfold K; lia).
    assert (Hpos : (0 < length (terms a))%nat) by (destruct (terms a); [congruence|cbn; lia]).
    destruct args as [|x args]; cbv beta iota in E.
    - unfold mk_const in E. injection E as <- _. inversion G1; subst es1. cbn [map tot length] in G3, G4, G5.
      apply sv_gc; [exact I|]. rewrite cv_const.
      assert (Q : sv (flit 0) (tot (map fst ea) + tot (map fst eb)) cm (k + j + 1)).
      { replace (tot (map fst ea) + tot (map fst eb)) with cf by lra. eapply sv_weak; [exact G2|lra|lia]. }
      eapply sv_weak; [exact Q|lra|lia].
    - destruct (neqb c (flit 0)) eqn:Ec; cbn [negb] in E.
      + unfold mk_add in E. destruct (length (x :: args) <? 2)%nat; [discriminate|]. injection E as <- _.
        destruct (cabsorb_first K _ _ cf cm _ G1 ltac:(discriminate) G2) as (es' & Q1 & Q2 & Q3).
        exists (Nat.max K K), es'. cbn [terms]. repeat split; [discriminate|exact Q1|lra|lra|lia].
      + apply bind_ok in E as (y & k1 & E1 & E2). unfold mk_const in E1; injection E1 as <- <-.
        unfold mk_add in E2. destruct (length _ <? 2)%nat; [discriminate|]. injection E2 as <- _.
        destruct nc as [|nc].
        { rewrite G2' in Ec by reflexivity. discriminate Ec. }
        exists K%nat, (es1 ++ [(cf, cm)]). cbn [terms]. repeat split; [discriminate| | | |].
        * change (Forall2 (Pc K) ((x :: args) ++ [NConst st c]) (es1 ++ [(cf, cm)])).
          apply Forall2_app; [exact G1|]. constructor; [|constructor]. split; [exact I|exact G2].
        * rewrite map_app, tot_app. cbn [map fst tot]. lra.
        * rewrite map_app, tot_app. cbn [map snd tot]. lra.
        * cbn [length app] in *. rewrite app_length. cbn [length]. lia.
  Qed.
  Lemma gc_absorb n f m k cf cm j : gc n f m k -> sv (flit 0) cf cm j -> gc n (f + cf) (m + cm) (k + j).
  Proof.
    intros (K & es & H1 & H2 & -> & H4 & H5) Sc. destruct (cabsorb_first K _ _ cf cm j H2 H1 Sc) as (es' & Q1 & Q2 & Q3).
    exists (Nat.max K j), es'. repeat split; [exact H1|exact Q1|lra|lra|]. lia.
  Qed.
  Lemma is_const_inv n (v : F) : is_constant_with_value n v = true -> exists i w, n = NConst i w.
  Proof. destruct n; try discriminate. eauto. Qed.
  Lemma add_nn_gc a b f m k g l j n st st' : gc a f m k -> gc b g l j -> add_nn a b st = Ok (n, st') -> gc n (f + g) (m + l) (k + j + 1).
  Proof.
    intros Ga Gb E. unfold add_nn in E. change (@n0 F num_f) with (flit 0) in E.
    destruct (is_constant_with_value a (flit 0)) eqn:Ea; [|destruct (is_constant_with_value b (flit 0)) eqn:Eb].
    - unfold ret in E. injection E as <- _. apply is_const_inv in Ea as (i & v & ->). apply gc_const in Ga.
      eapply gc_weak; [rewrite (Rplus_comm f); eapply gc_absorb; eauto|lra|lia].
    - unfold ret in E. injection E as <- _. apply is_const_inv in Eb as (i & v & ->). apply gc_const in Gb.
      eapply gc_weak; [eapply gc_absorb; eauto|lra|lia].
    - eapply add_other_gc; eauto.
  Qed.
  Lemma add_ns_gc a v f m k n st st' : gc a f m k -> add_ns a v st = Ok (n, st') -> gc n (f + 0) (m + 0) (k + 0 + 1).
  Proof.
    intros Ga E. unfold add_ns in E. change (@n0 F num_f) with (flit 0) in E. destruct (neqb v (flit 0)) eqn:Ev.
    - unfold ret in E. injection E as <- _. rewrite !Rplus_0_r. eapply gc_weak; [exact Ga|lra|lia].
    - apply bind_ok in E as (x & k1 & E1 & E2). unfold mk_const in E1; injection E1 as <- <-. eapply add_other_gc; [exact Ga|apply const_gc|exact E2].
  Qed.
  Lemma add_sn_gc a v f m k n st st' : gc a f m k -> add_sn v a st = Ok (n, st') -> gc n (0 + f) (0 + m) (0 + k + 1).
  Proof.
    intros Ga E. unfold add_sn in E. change (@n0 F num_f) with (flit 0) in E. destruct (neqb v (flit 0)) eqn:Ev.
    - unfold ret in E. injection E as <- _. rewrite !Rplus_0_l. eapply gc_weak; [exact Ga|lra|lia].
    - apply bind_ok in E as (x & k1 & E1 & E2). unfold mk_const in E1; injection E1 as <- <-. eapply add_other_gc; [apply const_gc|exact Ga|exact E2].
  Qed.

  (** **** Products with a constant *)
  (** What a factor of value [fs] does to one term. *)
  Definition scaledc (fs ms : R) (ks K : nat) (n : node F) (e : R * R) : Prop :=
    notsum n /\ sv (cv n) (fs * fst e) (ms * snd e + tiny) (S (ks + K)).
  Lemma map_tot1 fs ms (es : list (R * R)) : tot (map fst (map (fun e => (fs * fst e, ms * snd e)) es)) = fs * tot (map fst es).
  Proof. induction es as [|e l0 IH]; cbn [map tot fst]; [lra|]. rewrite IH. lra. Qed.
  Lemma map_tot2 fs ms (es : list (R * R)) : tot (map snd (map (fun e => (fs * fst e, ms * snd e)) es)) = ms * tot (map snd es).
  Proof. induction es as [|e l0 IH]; cbn [map tot snd]; [lra|]. rewrite IH. lra. Qed.
  Lemma gc_one n f m k s fs ms ks : gc n f m k -> sv s fs ms ks -> fin s -> fval s = 1 -> gc n (fs * f) (ms * m) (ks + k).
  Proof.
    intros (K & es & H1 & H2 & -> & H4 & H5) Ss Hs Es. pose proof (sv_mag _ _ _ _ Ss) as Hms.
    exists (ks + K)%nat, (map (fun e => (fs * fst e, ms * snd e)) es). split; [exact H1|].
    rewrite map_tot1, map_tot2. split; [|split; [reflexivity|split; [apply Rmult_le_compat_l; assumption|lia]]].
    clear H1 H4 H5. induction H2 as [|x e l es [Nx Hx] Hf IH]; cbn [map]; constructor; auto.
    split; [exact Nx|]. cbn [fst snd]. eapply sv_one; eauto.
  Qed.
  Lemma cmapM_rel (Q : node F -> R * R -> Prop) (K : nat) (f : node F -> M (node F)) l es : Forall2 (Pc K) l es ->
    (forall x e k y k', Pc K x e -> f x k = Ok (y, k') -> Q y e) ->
    forall k l' k', mapM f l k = Ok (l', k') -> Forall2 Q l' es.
  Proof.
    intros Hf Hq. induction Hf as [|x e l es Hx Hf IH]; intros k l' k' E.
    - injection E as <- _. constructor.
    - apply mapM_cons_ok in E as (y & k1 & ys & E1 & E2 & ->). constructor; eauto.
  Qed.
  Lemma gc_scaled i l fs ms ks f m k (fm : node F -> M (node F)) n st st' :
    gc (NAdd i l) f m k -> (forall x e K c y c', Pc K x e -> fm x c = Ok (y, c') -> scaledc fs ms ks K y e) -> 0 <= ms ->
    bind (mapM fm l) mk_add st = Ok (n, st') -> gc n (fs * f) (ms * m + INR (k + 1) * tiny) (ks + k + 1).
  Proof.
    intros (K & es & H1 & H2 & -> & H4 & H5) Hq Hms E. apply bind_ok in E as (l' & k1 & E1 & E2).
    unfold mk_add in E2. destruct (length l' <? 2)%nat eqn:E3; [discriminate|]. injection E2 as <- _. apply Nat.ltb_ge in E3.
    pose proof (cmapM_rel _ K fm l es H2 (fun x e c y c' Hx Hy => Hq x e K c y c' Hx Hy) _ _ _ E1) as G. cbn [terms] in *.
    assert (Ll : length l' = length l).
    { transitivity (length es); [|symmetry]; eapply F2_len; eauto. }
    exists (S (ks + K)), (map (fun e => (fs * fst e, ms * snd e + tiny)) es). cbn [terms]. repeat split.
    - destruct l'; [cbn in E3; lia|discriminate].
    - clear -G. induction G as [|x e l es [Nx Hx] Hf IH]; cbn [map]; constructor; auto. split; auto.
    - clear. induction es as [|e es IH]; cbn [map tot fst]; [lra|]. rewrite <- IH. lra.
    - assert (Em : tot (map snd (map (fun e => (fs * fst e, ms * snd e + tiny)) es)) = ms * tot (map snd es) + INR (length es) * tiny).
      { clear. induction es as [|e es IH]; [cbn; lra|]. cbn [map tot snd]. rewrite IH. cbn [length]. rewrite S_INR. lra. }
      rewrite Em. apply Rplus_le_compat; [apply Rmult_le_compat_l; assumption|]. apply Rmult_le_compat_r; [pose proof tiny_pos; lra|].
      apply le_INR. assert (length l = length es) by (eapply F2_len; eauto). lia.
    - lia.
  Qed.
  (** A term times a constant: [n] is the product node, the term itself, or a constant. *)
  Definition times (v : F) (x n : node F) : Prop :=
    ((exists i w, n = NConst i w) /\ ((fin v /\ fval v = 0) \/ (exists i w, x = NConst i w))) \/
    (n = x /\ fin v /\ fval v = 1) \/
    (exists i j, n = NMul i (NConst j v) x \/ n = NMul i x (NConst j v)).
  Lemma times_sv v f m k x g l j n : sv v f m k -> sv (cv x) g l j -> times v x n -> sv (cv n) (f * g) (m * l + tiny) (S (k + j)).
  Proof.
    intros Sv Sx Ht. pose proof tiny_pos as Hp. destruct Ht as [((i & w & ->) & [[Fv Vv]|(i' & w' & ->)])|[(-> & Fv & Vv)|(i & i' & Hn)]].
    - rewrite cv_const. eapply sv_weak; [eapply sv_zero; eauto|lra|lia].
    - rewrite cv_const in *. eapply sv_weak; [eapply zero_by; eauto|lra|lia].
    - eapply sv_weak; [eapply sv_one; eauto|lra|lia].
    - assert (Hc : cv n = getd (option_map (fun y => SFmul 53 1024 y v) (coefo vc x))).
      { unfold cv. destruct Hn as [-> | ->]; [rewrite coefo_mul_l|rewrite coefo_mul_r]; reflexivity. }
      rewrite Hc. unfold cv in Sx. destruct (coefo vc x) as [y|]; cbn [option_map getd] in *.
      + rewrite (Rmult_comm f), (Rmult_comm m), (Nat.add_comm k). apply sv_mul; assumption.
      + eapply sv_weak; [eapply zero_by; eauto|lra|lia].
  Qed.
  Lemma times_scaled v f m k x e K n : sv v f m k -> Pc K x e -> times v x n -> scaledc f m k K n e.
  Proof.
    intros Sv [Nx Sx] Ht. split; [|eapply times_sv; eauto].
    destruct Ht as [((i & w & ->) & _)|[(-> & _)|(i & i' & [-> | ->])]]; [exact I|exact Nx|exact I|exact I].
  Qed.
  Lemma z0 : (Z.abs 0 <= 2 ^ 53)%Z. Proof. cbn; lia. Qed.
  Lemma z1 : (Z.abs 1 <= 2 ^ 53)%Z. Proof. cbn; lia. Qed.

  Lemma mul_cn_times i v x n st st' : vb v -> notsum x -> mul_cn (NConst i v) x st = Ok (n, st') -> times v x n.
  Proof.
    intros Hv Nx E. destruct x as [i' w|i' sn kd|i' ar|i' y|i' y z|i' y z|i' y]; try (destruct Nx; fail);
      cbn [mul_cn is_constant_with_value is_constant andb orb] in E; change (@n0 F num_f) with (flit 0) in E; change (@n1 F num_f) with (flit 1) in E;
      rewrite ?orb_false_r in E.
    { left. split; [|right; eauto]. unfold mk_const, ret in E.
      destruct (_ || _); [injection E as <- _; eauto|]. destruct (neqb v (flit 1)); [injection E as <- _; eauto|].
      destruct (neqb w (flit 1)); injection E as <- _; eauto. }
    all: destruct (neqb v (flit 0)) eqn:E0; [unfold mk_const in E; injection E as <- _; left; split; [eauto|]; left; apply (neqb_fin v 0 z0 Hv E0)|];
      destruct (neqb v (flit 1)) eqn:E1; [unfold ret in E; injection E as <- _; right; left; split; [reflexivity|]; apply (neqb_fin v 1 z1 Hv E1)|];
      unfold mk_mul in E; injection E as <- _; right; right; eauto.
  Qed.
  Lemma mul_nc_times i v x n st st' : vb v -> notsum x -> mul_nc x (NConst i v) st = Ok (n, st') -> times v x n.
  Proof.
    intros Hv Nx E. destruct x as [i' w|i' sn kd|i' ar|i' y|i' y z|i' y z|i' y]; try (destruct Nx; fail);
      cbn [mul_nc is_constant_with_value is_constant andb orb] in E; change (@n0 F num_f) with (flit 0) in E; change (@n1 F num_f) with (flit 1) in E.
    { left. split; [|right; eauto]. unfold mk_const, ret in E.
      destruct (_ || _); [injection E as <- _; eauto|]. destruct (neqb w (flit 1)); [injection E as <- _; eauto|].
      destruct (neqb v (flit 1)); injection E as <- _; eauto. }
    all: destruct (neqb v (flit 0)) eqn:E0; [unfold mk_const in E; injection E as <- _; left; split; [eauto|]; left; apply (neqb_fin v 0 z0 Hv E0)|];
      destruct (neqb v (flit 1)) eqn:E1; [unfold ret in E; injection E as <- _; right; left; split; [reflexivity|]; apply (neqb_fin v 1 z1 Hv E1)|];
      unfold mk_mul in E; injection E as <- _; right; right; eauto.
  Qed.
  Lemma mul_ns_times v x n st st' : vb v -> notsum x -> mul_ns x v st = Ok (n, st') -> times v x n.
  Proof.
    intros Hv Nx E. destruct x as [i' w|i' sn kd|i' ar|i' y|i' y z|i' y z|i' y]; try (destruct Nx; fail);
      cbn [mul_ns is_constant_with_value is_constant andb orb] in E; change (@n0 F num_f) with (flit 0) in E; change (@n1 F num_f) with (flit 1) in E.
    { left. split; [|right; eauto]. unfold mk_const in E. injection E as <- _. eauto. }
    all: destruct (neqb v (flit 0)) eqn:E0; [unfold mk_const in E; injection E as <- _; left; split; [eauto|]; left; apply (neqb_fin v 0 z0 Hv E0)|];
      destruct (neqb v (flit 1)) eqn:E1; [unfold ret in E; injection E as <- _; right; left; split; [reflexivity|]; apply (neqb_fin v 1 z1 Hv E1)|];
      apply bind_ok in E as (c & k1 & Ec & E); unfold mk_const in Ec; injection Ec as <- <-; unfold mk_mul in E; injection E as <- _; right; right; eauto.
  Qed.
  Lemma mul_sn_times v x n st st' : vb v -> notsum x -> mul_sn v x st = Ok (n, st') -> times v x n.
  Proof.
    intros Hv Nx E. destruct x as [i' w|i' sn kd|i' ar|i' y|i' y z|i' y z|i' y]; try (destruct Nx; fail);
      cbn [mul_sn is_constant_with_value is_constant andb orb] in E; change (@n0 F num_f) with (flit 0) in E; change (@n1 F num_f) with (flit 1) in E;
      rewrite ?orb_false_r, ?orb_true_r in E.
    { left. split; [|right; eauto]. unfold mk_const in E. injection E as <- _. eauto. }
    all: destruct (neqb v (flit 0)) eqn:E0; [unfold mk_const in E; injection E as <- _; left; split; [eauto|]; left; apply (neqb_fin v 0 z0 Hv E0)|];
      destruct (neqb v (flit 1)) eqn:E1; [unfold ret in E; injection E as <- _; right; left; split; [reflexivity|]; apply (neqb_fin v 1 z1 Hv E1)|];
      apply bind_ok in E as (c & k1 & Ec & E); unfold mk_const in Ec; injection Ec as <- <-; unfold mk_mul in E; injection E as <- _; right; right; eauto.
  Qed.

  (** A sum or a term times a constant. *)
  Lemma scale_gc v f m k a g l j (fm : node F -> M (node F)) n st st' :
    sv v f m k -> gc a g l j ->
    (forall x c y c', notsum x -> fm x c = Ok (y, c') -> times v x y) ->
    (notsum a -> fm a st = Ok (n, st')) ->
    (forall i ar, a = NAdd i ar ->
       (fin v /\ fval v = 0 /\ exists i w, n = NConst i w) \/ (fin v /\ fval v = 1 /\ n = a) \/ bind (mapM fm ar) mk_add st = Ok (n, st')) ->
    gc n (f * g) (m * l + INR (j + 1) * tiny) (k + j + 1).
  Proof.
    intros Sv Ga Ht Hn Hs. pose proof tiny_pos as Hp. pose proof (pos_INR (j + 1)) as Hi. pose proof (sv_mag _ _ _ _ Sv) as Hm.
    assert (H1 : tiny <= INR (j + 1) * tiny).
    { rewrite <- (Rmult_1_l tiny) at 1. apply Rmult_le_compat_r; [lra|]. change 1 with (INR 1). apply le_INR. lia. }
    assert (Hd : notsum a \/ exists i ar, a = NAdd i ar) by (destruct a; cbn; eauto). destruct Hd as [Na|(i & ar & Ea)].
    - specialize (Ht _ _ _ _ Na (Hn Na)). pose proof (gc_sv _ _ _ _ Ga) as Sa. apply sv_gc.
      + destruct Ht as [((i & w & ->) & _)|[(-> & _)|(i & i' & [-> | ->])]]; [exact I|exact Na|exact I|exact I].
      + eapply sv_weak; [eapply times_sv; eauto|lra|lia].
    - destruct (Hs _ _ Ea) as [(Fv & V0 & i' & w & ->)|[(Fv & V1 & ->)|Em]].
      + pose proof (gc_sv _ _ _ _ Ga) as Sa. apply sv_gc; [exact I|]. rewrite cv_const. eapply sv_weak; [eapply (sv_zero v); eauto|lra|lia].
      + eapply gc_weak; [eapply gc_one; eauto|lra|lia].
      + subst a. eapply gc_weak; [eapply (gc_scaled i ar f m k g l j fm); [exact Ga| |exact Hm|exact Em]|lra|lia].
        intros x e K c y c' Px Ey. eapply times_scaled; [exact Sv|exact Px|]. eapply Ht; [apply Px|exact Ey].
  Qed.
  Lemma mul_nn_gc_l i v f m k b g l j n st st' : sv v f m k -> gc b g l j -> mul_nn (NConst i v) b st = Ok (n, st') ->
    gc n (f * g) (m * l + many k j) (k + j + 1).
  Proof.
    intros Sv Gb E. eapply gc_weak; [eapply (scale_gc v f m k b g l j (mul_cn (NConst i v))); [exact Sv|exact Gb| | |]| |lia].
    - intros x c y c' Nx Ey. eapply mul_cn_times; [apply (sv_vb _ _ _ _ Sv)|exact Nx|exact Ey].
    - intros Nb. rewrite <- E. destruct b; try (destruct Nb; fail); reflexivity.
    - intros i' ar ->. cbn [mul_nn is_constant_with_value is_constant andb orb] in E. unfold mul_nn in E. cbn [is_constant_with_value is_constant andb orb] in E.
      change (@n0 F num_f) with (flit 0) in E; change (@n1 F num_f) with (flit 1) in E. rewrite orb_false_r in E. pose proof (sv_vb _ _ _ _ Sv) as Hv.
      destruct (neqb v (flit 0)) eqn:E0; [left; destruct (neqb_fin v 0 z0 Hv E0); unfold mk_const in E; injection E as <- _; eauto|].
      destruct (neqb v (flit 1)) eqn:E1; [right; left; destruct (neqb_fin v 1 z1 Hv E1); unfold ret in E; injection E as <- _; auto|]. auto.
    - apply Rplus_le_compat_l. apply many_r. lia.
  Qed.
  Lemma mul_nn_gc_r i v f m k b g l j n st st' : sv v f m k -> gc b g l j -> mul_nn b (NConst i v) st = Ok (n, st') ->
    gc n (g * f) (l * m + many j k) (j + k + 1).
  Proof.
    intros Sv Gb E. rewrite (Rmult_comm g), (Rmult_comm l).
    eapply gc_weak; [eapply (scale_gc v f m k b g l j (fun x => mul_nc x (NConst i v))); [exact Sv|exact Gb| | |]| |lia].
    - intros x c y c' Nx Ey. eapply mul_nc_times; [apply (sv_vb _ _ _ _ Sv)|exact Nx|exact Ey].
    - intros Nb. rewrite <- E. destruct b; try (destruct Nb; fail); reflexivity.
    - intros i' ar ->. unfold mul_nn in E. cbn [is_constant_with_value is_constant andb orb] in E.
      change (@n0 F num_f) with (flit 0) in E; change (@n1 F num_f) with (flit 1) in E. pose proof (sv_vb _ _ _ _ Sv) as Hv.
      destruct (neqb v (flit 0)) eqn:E0; [left; destruct (neqb_fin v 0 z0 Hv E0); unfold mk_const in E; injection E as <- _; eauto|].
      destruct (neqb v (flit 1)) eqn:E1; [right; left; destruct (neqb_fin v 1 z1 Hv E1); unfold ret in E; injection E as <- _; auto|]. auto.
    - apply Rplus_le_compat_l. apply many_l. lia.
  Qed.
  Lemma mul_ns_gc v f m k b g l j n st st' : sv v f m k -> gc b g l j -> mul_ns b v st = Ok (n, st') ->
    gc n (g * f) (l * m + many j k) (j + k + 1).
  Proof.
    intros Sv Gb E. rewrite (Rmult_comm g), (Rmult_comm l).
    eapply gc_weak; [eapply (scale_gc v f m k b g l j (fun x => mul_ns x v)); [exact Sv|exact Gb| | |]| |lia].
    - intros x c y c' Nx Ey. eapply mul_ns_times; [apply (sv_vb _ _ _ _ Sv)|exact Nx|exact Ey].
    - intros _. exact E.
    - intros i' ar ->. cbn [mul_ns is_constant_with_value is_constant andb orb] in E.
      change (@n0 F num_f) with (flit 0) in E; change (@n1 F num_f) with (flit 1) in E. pose proof (sv_vb _ _ _ _ Sv) as Hv.
      destruct (neqb v (flit 0)) eqn:E0; [left; destruct (neqb_fin v 0 z0 Hv E0); unfold mk_const in E; injection E as <- _; eauto|].
      destruct (neqb v (flit 1)) eqn:E1; [right; left; destruct (neqb_fin v 1 z1 Hv E1); unfold ret in E; injection E as <- _; auto|]. auto.
    - apply Rplus_le_compat_l. apply many_l. lia.
  Qed.
  Lemma mul_sn_gc v f m k b g l j n st st' : sv v f m k -> gc b g l j -> mul_sn v b st = Ok (n, st') ->
    gc n (f * g) (m * l + many k j) (k + j + 1).
  Proof.
    intros Sv Gb E.
    eapply gc_weak; [eapply (scale_gc v f m k b g l j (fun x => mul_sn v x)); [exact Sv|exact Gb| | |]| |lia].
    - intros x c y c' Nx Ey. eapply mul_sn_times; [apply (sv_vb _ _ _ _ Sv)|exact Nx|exact Ey].
    - intros _. exact E.
    - intros i' ar ->. cbn [mul_sn is_constant_with_value is_constant andb orb] in E.
      change (@n0 F num_f) with (flit 0) in E; change (@n1 F num_f) with (flit 1) in E. pose proof (sv_vb _ _ _ _ Sv) as Hv. rewrite orb_false_r in E.
      destruct (neqb v (flit 0)) eqn:E0; [left; destruct (neqb_fin v 0 z0 Hv E0); unfold mk_const in E; injection E as <- _; eauto|].
      destruct (neqb v (flit 1)) eqn:E1; [right; left; destruct (neqb_fin v 1 z1 Hv E1); unfold ret in E; injection E as <- _; auto|]. auto.
    - apply Rplus_le_compat_l. apply many_r. lia.
  Qed.
  (** Negation and differences. *)
  Lemma cneg_term x e K n st st' : Pc K x e -> mul_sn nm1 x st = Ok (n, st') -> Pc K n (- fst e, snd e).
  Proof.
    intros [Nx Sx] E. destruct fin_m1 as [F1 V1]. pose proof (mul_sn_times _ _ _ _ _ (proj1 F1) Nx E) as Ht. cbn [fst snd].
    destruct Ht as [((i & w & ->) & [[_ V0]|(i' & w' & ->)])|[(-> & _ & V2)|(i & i' & Hn)]].
    - exfalso. change (@nm1 F num_f) with (SFopp (flit 1)) in V0. rewrite V1 in V0. lra.
    - split; [exact I|]. cbn [fst snd]. rewrite cv_const in *. destruct Sx as [A B C]. constructor; [exact A|rewrite Rabs_Ropp; exact B|].
      intros Hf. specialize (C Hf). rewrite fval_flit0 in *. replace (0 - - fst e) with (- (0 - fst e)) by ring. rewrite Rabs_Ropp. exact C.
    - exfalso. change (@nm1 F num_f) with (SFopp (flit 1)) in V2. rewrite V1 in V2. lra.
    - split; [destruct Hn as [-> | ->]; exact I|]. cbn [fst snd].
      assert (Hc : cv n = getd (option_map (fun y => SFmul 53 1024 y (SFopp (flit 1))) (coefo vc x))).
      { unfold cv. destruct Hn as [-> | ->]; [rewrite coefo_mul_l|rewrite coefo_mul_r]; reflexivity. }
      rewrite Hc. unfold cv in Sx. destruct (coefo vc x) as [y|]; cbn [option_map getd] in *.
      + destruct Sx as [V A Er]. constructor; [apply mul_vb; [exact V|apply F1]|rewrite Rabs_Ropp; exact A|].
        intros Hf. destruct (mul_back y _ V (proj1 F1) Hf) as (Hx & _ & ->). rewrite V1. replace (fval y * -1) with (- fval y) by ring.
        rewrite RN_opp, fin_RN by exact Hx. replace (- fval y - - fst e) with (- (fval y - fst e)) by ring. rewrite Rabs_Ropp. auto.
      + destruct Sx as [A B C]. constructor; [exact A|rewrite Rabs_Ropp; exact B|].
        intros Hf. specialize (C Hf). rewrite fval_flit0 in *. replace (0 - - fst e) with (- (0 - fst e)) by ring. rewrite Rabs_Ropp. exact C.
  Qed.
  Lemma neg_gc a f m k n st st' : gc a f m k -> mul_sn nm1 a st = Ok (n, st') -> gc n (- f) m k.
  Proof.
    intros Ga E. assert (Hn : notsum a \/ exists i l, a = NAdd i l) by (destruct a; cbn; eauto).
    destruct Hn as [Hn|(i & l & ->)].
    - pose proof (gc_sv _ _ _ _ Ga) as Sa. destruct (cneg_term _ (f, m) k _ _ _ (conj Hn Sa) E) as [Nn Sn]. apply sv_gc; [exact Nn|exact Sn].
    - cbn [mul_sn is_constant is_constant_with_value] in E. destruct (m1_not fsin fcos) as [M0 M1].
      change (neqb (@nm1 F num_f) n0 = false) in M0. change (neqb (@nm1 F num_f) n1 = false) in M1. rewrite M0, M1 in E. cbn [orb] in E.
      apply bind_ok in E as (l' & k1 & E1 & E2). unfold mk_add in E2. destruct (length l' <? 2)%nat eqn:E3; [discriminate|]. injection E2 as <- _. apply Nat.ltb_ge in E3.
      destruct Ga as (K & es & H1 & H2 & -> & H4 & H5). cbn [terms] in *.
      pose proof (cmapM_rel (fun y e => Pc K y (- fst e, snd e)) K _ l es H2 (fun x e c y c' Hx Hy => cneg_term x e K y c c' Hx Hy) _ _ _ E1) as G.
      exists K, (map (fun e => (- fst e, snd e)) es). cbn [terms]. repeat split.
      + destruct l'; [cbn in E3; lia|discriminate].
      + clear -G. induction G as [|x e l es Hx Hf IH]; cbn [map]; constructor; auto.
      + clear. induction es as [|e es IH]; cbn [map tot fst]; [lra|]. rewrite <- IH. lra.
      + rewrite map_map. cbn [snd]. exact H4.
      + rewrite (F2_len _ _ _ G), <- (F2_len _ _ _ H2). exact H5.
  Qed.
  Lemma neg_n_gc a f m k n st st' : gc a f m k -> neg_n a st = Ok (n, st') -> gc n (- f) m k.
  Proof. intros Ga E. destruct a as [i w|i sn kd|i ar|i y|i y z|i y z|i y]; try (eapply neg_gc; [exact Ga|exact E]). Qed.
  Lemma sub_nn_gc a b f m k g l j n st st' : gc a f m k -> gc b g l j -> sub_nn a b st = Ok (n, st') -> gc n (f - g) (m + l) (k + j + 1).
  Proof. intros Ga Gb E. apply bind_ok in E as (x & k1 & E1 & E2). eapply add_nn_gc; [exact Ga|eapply neg_gc; [exact Gb|exact E1]|exact E2]. Qed.
  Lemma sub_ns_gc a v f m k n st st' : gc a f m k -> sub_ns a v st = Ok (n, st') -> gc n (f - 0) (m + 0) (k + 0 + 1).
  Proof.
    intros Ga E. apply bind_ok in E as (c & k0 & E0 & E). unfold mk_const in E0. injection E0 as <- <-.
    apply bind_ok in E as (x & k1 & E1 & E2). eapply add_nn_gc; [exact Ga|eapply neg_gc; [apply const_gc|exact E1]|exact E2].
  Qed.
  Lemma sub_sn_gc a v f m k n st st' : gc a f m k -> sub_sn v a st = Ok (n, st') -> gc n (0 - f) (0 + m) (0 + k + 1).
  Proof.
    intros Ga E. apply bind_ok in E as (c & k0 & E0 & E). unfold mk_const in E0. injection E0 as <- <-.
    apply bind_ok in E as (x & k1 & E1 & E2). eapply add_nn_gc; [apply const_gc|eapply neg_gc; [exact Ga|exact E1]|exact E2].
  Qed.
  Lemma zero_div f m k v : sv (flit 0) f m k -> fin v -> fval v <> 0 -> sv (flit 0) (f / fval v) (m / Rabs (fval v) + tiny) (S k).
  Proof.
    intros Sz Hv Nv. pose proof tiny_pos. assert (Hp : 0 < / Rabs (fval v)) by (apply Rinv_0_lt_compat, Rabs_pos_lt; exact Nv).
    pose proof (sv_mag _ _ _ _ Sz) as Hm. destruct Sz as [A B C]. specialize (C fin_flit0). rewrite fval_flit0 in C.
    assert (Hd : forall z, Rabs (z / fval v) = Rabs z * / Rabs (fval v)) by (intros z; unfold Rdiv; rewrite Rabs_mult, Rabs_inv; reflexivity).
    assert (Hq : 0 <= m * / Rabs (fval v)) by (apply Rmult_le_pos; lra).
    constructor; [exact A|rewrite Hd; apply Rle_trans with (m * / Rabs (fval v)); [apply Rmult_le_compat_r; lra|unfold Rdiv; lra]|].
    intros _. rewrite fval_flit0. replace (0 - f / fval v) with ((0 - f) / fval v) by (field; exact Nv). rewrite Hd.
    apply Rle_trans with (gam k * m * / Rabs (fval v)); [apply Rmult_le_compat_r; lra|]. rewrite Rmult_assoc. unfold Rdiv.
    apply Rmult_le_compat; [apply gam_pos|exact Hq|apply gam_mono; lia|lra].
  Qed.
  Lemma div_ns_gc a v f m k n st st' : gc a f m k -> fin v -> div_ns a v st = Ok (n, st') -> gc n (f / fval v) (m / Rabs (fval v) + tiny) (k + 1).
  Proof.
    intros Ga Hv E. unfold div_ns in E. change (@n0 F num_f) with (flit 0) in E. change (@n1 F num_f) with (flit 1) in E. pose proof tiny_pos.
    pose proof (gc_sv _ _ _ _ Ga) as Sa. pose proof (sv_mag _ _ _ _ Sa) as Hm.
    destruct (neqb v (flit 0)) eqn:E0; [discriminate|].
    assert (Nv : fval v <> 0).
    { intros Z. change (SFeqb v (flit 0) = false) in E0. rewrite (feqb_fin v _ Hv fin_flit0) in E0. rewrite Z, fval_flit0 in E0.
      destruct (Raux.Req_bool_spec 0 0); [discriminate|congruence]. }
    destruct (neqb v (flit 1)) eqn:E1.
    { unfold ret in E. injection E as <- _. destruct (neqb_fin v 1 z1 (proj1 Hv) E1) as [_ V1]. rewrite V1, Rabs_R1.
      unfold Rdiv. rewrite Rinv_1, !Rmult_1_r. eapply gc_weak; [exact Ga|lra|lia]. }
    assert (Cst : (exists i w, a = NConst i w) -> (exists i w, n = NConst i w) -> gc n (f / fval v) (m / Rabs (fval v) + tiny) (k + 1)).
    { intros (i & w & ->) (i' & w' & ->). apply sv_gc; [exact I|]. rewrite cv_const in *. rewrite Nat.add_1_r. apply zero_div; assumption. }
    destruct (is_constant_with_value a (flit 0)) eqn:Ea.
    { unfold mk_const in E. injection E as <- _. apply Cst; [eapply is_const_inv; exact Ea|eauto]. }
    destruct (is_constant a) eqn:Ca.
    { destruct a; try discriminate Ca. unfold mk_const in E. injection E as <- _. apply Cst; eauto. }
    apply bind_ok in E as (c & k0 & E2 & E). unfold mk_const in E2. injection E2 as <- <-. unfold mk_div in E. injection E as <- _.
    apply sv_gc; [exact I|]. unfold cv in *. rewrite coefo_div. rewrite Nat.add_1_r. destruct (coefo vc a) as [y|]; cbn [option_map getd] in *.
    - apply sv_div; assumption.
    - apply zero_div; assumption.
  Qed.
End Coef.
