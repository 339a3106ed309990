(** Property C70: approximate solutions of the binary64 data of a linear model against the exact
    model. *)
From Verif Require Import Base Num Node NodeInd NodeDiff NodeStd Constraint Matrix Problem ModelStd Model
     ExprSpec World MapProofs StdPropProofs OccProofs ConstrSpec ConstrProofs PartsProofs
     MatSpec ProblemProofs BuildProofs BuildMain ModelSpec StdFacts
     Api ApiProofs ModelApi StdMain HistProofs HistAff Properties_Std Properties_Sparse Properties_Solve TextSpec ExactSpec RoundSpec
     FmtProofs FloatProofs FloatOps RoundOps RoundProofs Properties_Text Properties_Round PlaceSpec SlotAny Properties_Place
     NoFun RoundCoef CoefSpec CoefProofs CoefHist Properties_Coef TolSpec PostSpec PostProofs.
From Coq Require Import Reals Lra Lia Floats.SpecFloat.
From Flocq Require Raux.
Local Open Scope R_scope.

Lemma exact_sub n ea eb r : exact_value n (a_sub ea eb) r = exact_value n ea r - exact_value n eb r.
Proof.
  unfold exact_value. cbn [a_sub a_coef].
  replace (cells n (fun c => (a_coef ea (Some c) - a_coef eb (Some c)) * r c))
    with (cells n (fun c => a_coef ea (Some c) * r c) + (-1) * cells n (fun c => a_coef eb (Some c) * r c)); [ring|].
  rewrite <- cells_scal, <- cells_plus. apply cells_ext. intros; ring.
Qed.
Lemma bound_mul ops c m : error_bound ops m * c = error_bound ops (m * c).
Proof. unfold error_bound. ring. Qed.
Lemma bound_plus ops a b : error_bound ops a + error_bound ops b = error_bound ops (a + b).
Proof. unfold error_bound. ring. Qed.
Lemma bound_cells ops n (g h : nat -> R) : cells n (fun c => error_bound ops (g c) * h c) = error_bound ops (cells n (fun c => g c * h c)).
Proof. unfold error_bound. rewrite <- cells_scal. apply cells_ext. intros; ring. Qed.

Lemma F2_some {A B} (Q : A -> B -> Prop) l l' : Forall2 Q l l' -> forall a, In a l -> exists b, In (a, b) (combine l l').
Proof. induction 1 as [|x y l l' _ _ IH]; cbn; [tauto|]. intros a [->|Ha]; [eauto|]. destruct (IH a Ha) as [b Hb]. eauto. Qed.

Lemma Forall_pick {A B} (P : A -> B -> Prop) l : Forall (fun a => exists b, P a b) l -> exists l', Forall2 P l l'.
Proof. induction 1 as [|a l [b Hb] _ [l' IH]]; [exists []; constructor|]. exists (b :: l'). constructor; auto. Qed.

Section Props.
  Variables fsin fcos : F -> F.
  Notation NF := (NumF fsin fcos).
  Local Instance num_f : Num F := NF.
  Context {HO : HashOrd}.
  Variables (st : mstate F) (es : list aest) (m : model F) (sp : std_prob F) (k' : nat).
  Hypothesis Hl : @lin_hist NF st es.
  Hypothesis Hm : In m (st_models st).
  Hypothesis E : std_problem m (st_k st) = Ok (sp, k').

  Local Definition Hh : hist any_op st := lin_any fsin fcos st es Hl.
  Local Definition Hord : @number_order F num_f := C67_binary64 fsin fcos.
  Notation k := (st_k st).
  Notation p := (sp_prob sp).
  Notation A := (m_a (base_of (sp_prob sp))).

  Lemma v2i_at v i : In (v, i) (sp_var2index sp) -> nth_error (sp_var2index sp) i = Some (v, i).
  Proof.
    intros Hin. destruct (C24_bijection st m sp k' Hh Hm E (no_minus Hord)) as (B & _).
    apply In_nth_error in Hin as [j Hj]. assert (Hs : nth_error (map snd (sp_var2index sp)) j = Some i) by (rewrite nth_error_map, Hj; reflexivity).
    rewrite B in Hs. assert (Hlt : (j < length (seq 0 (m_nx (base_of p))))%nat) by (apply nth_error_Some; rewrite Hs; discriminate).
    rewrite seq_length in Hlt. apply nth_error_nth with (d := 0%nat) in Hs. rewrite seq_nth in Hs by exact Hlt. cbn in Hs. subst j. exact Hj.
  Qed.
  Definition cell_of (i : nat) : nat := match nth_error (sp_var2index sp) i with Some vi => nid (fst vi) | None => 0%nat end.
  Lemma cell_at v i : In (v, i) (sp_var2index sp) -> cell_of i = nid v.
  Proof. intros Hin. unfold cell_of. rewrite (v2i_at v i Hin). reflexivity. Qed.

  Definition tr (x : list R) (q : nat * nat * F) : nat * R * R := (cell_of (snd (fst q)), fval (snd q), nth (snd (fst q)) x 0).
  Lemma row_esum x r : rowR A r x = esum (map (tr x) (filter (fun q => Nat.eqb (fst (fst q)) r) (entries A))).
  Proof. unfold rowR, esum. rewrite map_map. reflexivity. Qed.
  Lemma esum_app l1 l2 : esum (l1 ++ l2) = esum l1 + esum l2.
  Proof. unfold esum. induction l1 as [|a l1 IH]; cbn; [ring|]. rewrite IH. ring. Qed.

  Lemma esum_cons q l : esum (q :: l) = snd (fst q) * snd q + esum l.
  Proof. reflexivity. Qed.

  (** The entries of a row have distinct columns, each the column of a variable. *)
  Lemma row_cols r : NoDup (map (fun q => snd (fst q)) (filter (fun q => Nat.eqb (fst (fst q)) r) (entries A))).
  Proof.
    destruct (C62_unique st m sp k' Hh Hm E (no_minus Hord)) as [Hn _]. unfold positions, lin_rows in Hn. revert Hn.
    induction (entries A) as [|[[r0 i0] a0] l IH]; intros Hn; cbn [filter map]; [constructor|].
    cbn [map fst] in Hn. apply NoDup_cons_iff in Hn as [H1 Hn]. cbn [fst snd]. destruct (Nat.eqb_spec r0 r) as [->|]; [|apply IH; exact Hn].
    cbn [map fst snd]. constructor; [|apply IH; exact Hn]. intros Hin. apply in_map_iff in Hin as ([[r1 i1] a1] & Ei & Hin).
    apply filter_In in Hin as [Hin Hr]. cbn [fst snd] in *. apply Nat.eqb_eq in Hr. subst. apply H1. apply in_map_iff. exists (r, i0, a1). auto.
  Qed.
  Lemma entry_var r i a : In (r, i, a) (entries A) -> exists v, In (v, i) (sp_var2index sp).
  Proof.
    intros Hin. destruct (C67_arranged st m sp k' Hh Hm E (no_minus Hord)) as (obj & cs & slots & Em & _).
    destruct (C29_well_formed st m _ k' Hh Hm Em) as (sp' & E' & Hwf). rewrite E in E'. injection E' as <-.
    destruct (wf_a _ Hwf) as (_ & _ & _ & _ & _ & Hc). apply (var_any st m sp k' Hord Hh Hm E).
    rewrite (nx_any st m sp k' Hord Hh Hm E). rewrite Forall_forall in Hc. apply Hc. unfold entries in Hin. apply in_combine_l in Hin.
    apply in_combine_r in Hin. exact Hin.
  Qed.

  Lemma model_var_old v : model_var m v -> (nid v < k)%nat.
  Proof.
    intros [Hv|(c & Hc & Hv)]; [|exact (Properties_Place.old_var st m Hh Hm v c Hc Hv)].
    destruct (hist_inv false st Hh) as (S & Hi). pose proof (hi_world _ _ _ Hi) as HW.
    pose proof (hi_models _ _ _ Hi) as G. rewrite Forall_forall in G. destruct (G m Hm) as (Mi & _ & _).
    pose proof (mi_obj _ _ Mi) as So. destruct (md_objective m) as [f|f|]; [| |destruct Hv];
      apply (w_lt _ _ _ HW); exact (world_sub _ _ _ _ _ HW So (proj2 Hv)).
  Qed.

  Section Slots.
    Variables (obj : std_comp F) (cs : cstd F) (slots : list (slot F)).
    Hypothesis Em : model_std m (st_k st) = Ok ((obj, cs), k').
    Hypothesis Hp : arranged (st_k st) m cs sp slots.
    Hypothesis HF : Forall2 (slot_close st es sp) (md_constraints m) slots.
    Hypothesis Hd : data_finite p.

    (** The number of the slack of a row, if any. *)
    Definition slack_num (x : list R) (sl : option (node F)) (y : R) : Prop :=
      match sl with Some s => exists i, In (s, i) (sp_var2index sp) /\ y = nth i x 0 | None => y = 0 end.

    Lemma row_close x r c j sl y b ea eb :
      reads k sp x r -> In (c, SRow j sl) (combine (md_constraints m) slots) -> slack_num x sl y ->
      nth_error (m_b (base_of p)) j = Some b -> has_est st es (clhs c) ea -> has_est st es (crhs c) eb ->
      Rabs (rowR A j x + y - fval b - (exact_value k ea r - exact_value k eb r)) <= rounding k ea eb r.
    Proof.
      intros Hr Hin Hy Hb Ha' Hb'. pose proof (F2_in_combine _ _ _ HF _ _ Hin) as Hc. pose proof (F2_in_combine _ _ _ (ar_slots _ _ _ _ _ Hp) _ _ Hin) as Hs.
      destruct (Hc ea eb Ha' Hb') as ((b0 & Eb0 & Hbc) & Hent & Hno). rewrite Hb in Eb0. injection Eb0 as <-.
      destruct Hs as (_ & _ & Hslk & _ & Hpat). set (e := a_sub ea eb) in *.
      destruct Hd as (Db & Da & _).
      set (Lr := filter (fun q => Nat.eqb (fst (fst q)) j) (entries A)).
      assert (HLr : forall r0 i a, In (r0, i, a) Lr <-> r0 = j /\ In (j, i, a) (entries A)).
      { intros r0 i a. unfold Lr. rewrite filter_In. cbn [fst]. rewrite Nat.eqb_eq. split; [intros [? ->]; auto|intros [-> ?]; auto]. }
      assert (Hold : forall v, constr_var c v -> (nid v < k)%nat).
      { intros v. apply (Properties_Place.old_var st m Hh Hm v c). exact (in_combine_l _ _ _ _ Hin). }
      (* the entries that are not of the slack *)
      assert (HL : exists L', (forall q, In q L' -> In q Lr) /\ NoDup (map (fun q => snd (fst q)) L') /\
                (forall q v, In q L' -> In (v, snd (fst q)) (sp_var2index sp) -> (nid v < k)%nat) /\
                (forall q v, In q Lr -> In (v, snd (fst q)) (sp_var2index sp) -> (nid v < k)%nat -> In q L') /\
                esum (map (tr x) Lr) = esum (map (tr x) L') - y).
      { pose proof (row_cols j) as Hnd. fold Lr in Hnd. destruct sl as [s|].
        - destruct Hslk as (Hk & _ & _). destruct Hy as (i & Hsi & ->). destruct (proj2 (Hpat s i Hsi) (or_intror eq_refl)) as [a Ha].
          assert (HaL : In (j, i, a) Lr) by (apply HLr; auto).
          pose proof (Hent s i a Hsi Ha) as Hm1. unfold sl_eqb in Hm1. rewrite Nat.eqb_refl in Hm1. subst a.
          apply in_split in HaL as (L1 & L2 & EL). exists (L1 ++ L2). rewrite EL in Hnd |- *. rewrite map_app in Hnd. cbn [map fst snd] in Hnd.
          split; [|split; [|split; [|split]]].
          + intros q. rewrite !in_app_iff. cbn. tauto.
          + rewrite map_app. exact (NoDup_remove_1 _ _ _ Hnd).
          + intros q v Hq Hv. assert (HqL : In q Lr) by (rewrite EL; apply in_or_app; apply in_app_or in Hq; cbn; tauto).
            destruct q as [[r0 i0] a0]. apply HLr in HqL as [-> HqA]. cbn [fst snd] in Hv.
            destruct (proj1 (Hpat v i0 Hv) (ex_intro _ a0 HqA)) as [Hcv|Hcv]; [exact (Hold v Hcv)|]. exfalso. injection Hcv as <-.
            assert (i0 = i) by exact (Properties_Place.v2i_inj Hord st m sp k' Hh Hm E s i0 i Hv Hsi). subst i0.
            apply NoDup_remove_2 in Hnd. apply Hnd. rewrite <- map_app. apply in_map_iff. exists (j, i, a0). split; [reflexivity|exact Hq].
          + intros q v Hq Hv Hvk. apply in_app_or in Hq. apply in_or_app. destruct Hq as [Hq|[<-|Hq]]; auto. exfalso. cbn [fst snd] in Hv.
            pose proof (Properties_Place.v2i_fun Hord st m sp k' Hh Hm E v s i Hv Hsi) as ->. lia.
          + rewrite map_app, esum_app. cbn [map]. rewrite esum_cons, map_app, esum_app. cbn [tr fst snd].
            replace (fval (flit (-1))) with (-1); [ring|]. symmetry. exact (proj2 (flit_int (-1) ltac:(lia))).
        - cbn in Hy. subst y. exists Lr. split; [auto|]. split; [exact Hnd|]. split; [|split; [auto|ring]].
          intros [[r0 i0] a0] v Hq Hv. apply HLr in Hq as [-> HqA]. cbn [fst snd] in Hv.
          destruct (proj1 (Hpat v i0 Hv) (ex_intro _ a0 HqA)) as [Hcv|Hcv]; [exact (Hold v Hcv)|discriminate]. }
      destruct HL as (L' & Hsub & Hnd' & Hold' & Hall & Esum).
      assert (Hvar' : forall q, In q L' -> exists v, In (v, snd (fst q)) (sp_var2index sp)).
      { intros [[r0 i0] a0] Hq. apply Hsub, HLr in Hq as [-> Hq]. exact (entry_var _ _ _ Hq). }
      assert (Hclose : Rabs (esum (map (tr x) L') - cells k (fun c0 => a_coef e (Some c0) * r c0)) <=
                       cells k (fun c0 => error_bound (a_ops e) (a_mag e (Some c0)) * Rabs (r c0))).
      { apply esum_close.
        - destruct (C24_bijection st m sp k' Hh Hm E (no_minus Hord)) as (_ & Hinj & _).
          clear -Hnd' Hvar' Hinj Hl Hm E. rewrite map_map. cbn [tr fst]. induction L' as [|q L IH]; cbn [map] in *; [constructor|].
          apply NoDup_cons_iff in Hnd' as [Hq Hnd']. constructor; [|apply IH; [exact Hnd'|intros; apply Hvar'; cbn; auto]].
          intros Hin. apply in_map_iff in Hin as (q' & Eq & Hin). destruct (Hvar' q (or_introl eq_refl)) as [v Hv]. destruct (Hvar' q' (or_intror Hin)) as [w Hw].
          rewrite (cell_at v _ Hv), (cell_at w _ Hw) in Eq. destruct (Hinj _ _ _ _ Hw Hv Eq) as [_ Ei]. apply Hq. rewrite <- Ei.
          apply in_map_iff. eauto.
        - intros c0 a y0 Hq. apply in_map_iff in Hq as (q & Eq & Hq). unfold tr in Eq. injection Eq as <- <- <-. left.
          destruct (Hvar' q Hq) as [v Hv]. rewrite (cell_at v _ Hv). pose proof (Hold' q v Hq Hv) as Hvk. split; [exact Hvk|].
          exact (nth_error_nth _ _ _ (Hr v _ Hv Hvk)).
        - intros c0 a y0 Hck Hq. apply in_map_iff in Hq as (q & Eq & Hq). unfold tr in Eq. injection Eq as <- <- <-.
          destruct (Hvar' q Hq) as [v Hv]. rewrite (cell_at v _ Hv). pose proof (Hold' q v Hq Hv) as Hvk.
          destruct q as [[r0 i0] a0]. apply Hsub, HLr in Hq as [-> HqA]. cbn [fst snd] in *.
          pose proof (Hent v i0 a0 Hv HqA) as Hq1. assert (Hne : sl_eqb sl v = false).
          { unfold sl_eqb. destruct sl as [s|]; [|reflexivity]. apply Nat.eqb_neq. destruct Hslk as (Hk & _). lia. }
          rewrite Hne in Hq1. destruct Hq1 as [_ Hq1]. rewrite Forall_forall in Da. rewrite <- float_value_fval. apply Hq1. exact (proj2 (Da _ HqA)).
        - intros c0 Hc0 Hn0. pose proof (Hno c0) as Hz. unfold near in Hz. apply Hz. intros v i a Hv Ev HqA. subst c0.
          apply (Hn0 (fval a) (nth i x 0)). apply in_map_iff. exists (j, i, a). split.
          + unfold tr. cbn [fst snd]. rewrite (cell_at v i Hv). reflexivity.
          + refine (Hall (j, i, a) v _ Hv Hc0). apply HLr. auto. }
      rewrite row_esum. fold Lr. rewrite Esum. rewrite <- exact_sub. fold e. unfold exact_value, rounding. fold e.
      unfold magnitude. rewrite <- bound_plus, <- bound_cells.
      destruct Hbc as [_ Hbc]. rewrite Forall_forall in Db. specialize (Hbc (proj2 (Db b (nth_error_In _ _ Hb)))). rewrite float_value_fval in Hbc.
      match goal with |- Rabs ?t <= _ => replace t with ((esum (map (tr x) L') - cells k (fun c0 => a_coef e (Some c0) * r c0)) + - (fval b - - a_coef e None)) by ring end.
      eapply Rle_trans; [apply Rabs_triang|]. rewrite Rabs_Ropp. lra.
    Qed.

    Lemma bound_close r c v b ea eb :
      In (c, SBound v b) (combine (md_constraints m) slots) -> finite64 b -> has_est st es (clhs c) ea -> has_est st es (crhs c) eb ->
      Rabs (r (nid v) - fval b - (exact_value k ea r - exact_value k eb r)) <= rounding k ea eb r.
    Proof.
      intros Hin Hfb Ha' Hb'. pose proof (F2_in_combine _ _ _ HF _ _ Hin) as Hc.
      destruct (Hc ea eb Ha' Hb') as ((_ & Hbc) & H1 & H0). set (e := a_sub ea eb) in *.
      pose proof (Properties_Place.bound_old st m sp Hh Hm cs slots Hp c v b Hin) as Hv.
      assert (Hclose : Rabs (esum [(nid v, 1, r (nid v))] - cells k (fun c0 => a_coef e (Some c0) * r c0)) <=
                       cells k (fun c0 => error_bound (a_ops e) (a_mag e (Some c0)) * Rabs (r c0))).
      { apply esum_close.
        - cbn. constructor; [tauto|constructor].
        - intros c0 a y [Eq|[]]. injection Eq as <- <- <-. left. auto.
        - intros c0 a y _ [Eq|[]]. injection Eq as <- <- <-. exact H1.
        - intros c0 _ Hn. apply (H0 c0). intros ->. apply (Hn 1 (r (nid v))). cbn. auto. }
      rewrite <- exact_sub. fold e. unfold exact_value, rounding. fold e. unfold magnitude. rewrite <- bound_plus, <- bound_cells.
      specialize (Hbc (proj2 Hfb)). rewrite float_value_fval in Hbc. unfold esum in Hclose. cbn [map fold_right fst snd] in Hclose.
      match goal with |- Rabs ?t <= _ => replace t with ((1 * r (nid v) + 0 - cells k (fun c0 => a_coef e (Some c0) * r c0)) + - (fval b - - a_coef e None)) by ring end.
      eapply Rle_trans; [apply Rabs_triang|]. rewrite Rabs_Ropp. lra.
    Qed.

    Hypothesis Hbf : Forall (fun e => finite64 (snd (fst e))) (cs_u cs) /\ Forall (fun e => finite64 (snd (fst e))) (cs_l cs).

    Lemma fle x y : finite64 x -> finite64 y -> SFleb x y = true -> fval x <= fval y.
    Proof.
      intros Hx Hy Hle. rewrite (fleb_fin x y (proj1 (finite_fin x) Hx) (proj1 (finite_fin y) Hy)) in Hle.
      destruct (Raux.Rle_bool_spec (fval x) (fval y)); [assumption|discriminate].
    Qed.
    Lemma fle_refl x : finite64 x -> SFleb x x = true.
    Proof. intros Hx. rewrite (fleb_fin x x (proj1 (finite_fin x) Hx) (proj1 (finite_fin x) Hx)). apply Raux.Rle_bool_true. lra. Qed.

    (** The bounds of the problem are at least as tight as the listed ones. *)
    Lemma bound_ineq c v b i : bounds_with cs c v b -> finite64 b -> In (v, i) (sp_var2index sp) ->
      match ckd c with
      | LessEqual => exists u, nth_error (m_u (base_of p)) i = Some u /\ fval u <= fval b
      | GreaterEqual => exists l, nth_error (m_l (base_of p)) i = Some l /\ fval l >= fval b
      | Equal => False
      end.
    Proof.
      intros Hb Hfb Hv. destruct (tightest_any st m sp k' obj cs slots Hord Hh Hm E Em Hp v i Hv) as [(u & Eu & _ & Tu & _) (l & El & _ & Tl & _)].
      destruct Hd as (_ & _ & Dl & Du & _). rewrite Forall_forall in Dl, Du. unfold bounds_with in Hb. destruct (ckd c); [exact Hb| |].
      - rewrite (ar_uppers _ _ _ _ _ Hp) in Hb. exists u. split; [exact Eu|]. apply fle; [exact (Du u (nth_error_In _ _ Eu))|exact Hfb|].
        exact (Tu b c Hb (fle_refl b Hfb)).
      - rewrite (ar_lowers _ _ _ _ _ Hp) in Hb. exists l. split; [exact El|]. apply Rle_ge. apply fle; [exact Hfb|exact (Dl l (nth_error_In _ _ El))|].
        exact (Tl b c Hb (fle_refl b Hfb)).
    Qed.
    Lemma bound_is_finite c v b : bounds_with cs c v b -> finite64 b.
    Proof.
      destruct Hbf as [Bu Bl]. rewrite Forall_forall in Bu, Bl. unfold bounds_with. destruct (ckd c); [tauto| |].
      - intros Hin. exact (Bu _ Hin).
      - intros Hin. exact (Bl _ Hin).
    Qed.
    Lemma bounds_var c v b : bounds_with cs c v b -> exists i, In (v, i) (sp_var2index sp).
    Proof.
      intros Hb. apply (Properties_Place.bnd_var st m sp k' Hh Hm E obj cs Em v b c). unfold bounds_with in Hb. destruct (ckd c); [destruct Hb|auto|auto].
    Qed.
    Lemma zero_val : fval (@n0 F num_f) = 0.
    Proof. exact (proj2 (flit_int 0 ltac:(lia))). Qed.

    Lemma sound_slot x r eps c s ea eb : 0 <= eps -> data_within eps p x -> reads k sp x r ->
      In (c, s) (combine (md_constraints m) slots) -> has_est st es (clhs c) ea -> has_est st es (crhs c) eb ->
      rel_within (match ckd c with Equal => eps | _ => 2 * eps end + rounding k ea eb r) (ckd c) (exact_value k ea r) (exact_value k eb r).
    Proof.
      intros He (Hx & Hrow & Hbox) Hr Hin Ha' Hb'. pose proof (F2_in_combine _ _ _ (ar_slots _ _ _ _ _ Hp) _ _ Hin) as Hs.
      (* a listed bound holds up to eps *)
      assert (Hbd : forall v b i, bounds_with cs c v b -> In (v, i) (sp_var2index sp) -> exists y, nth_error x i = Some y /\
                match ckd c with LessEqual => y <= fval b + eps | GreaterEqual => y >= fval b - eps | Equal => False end).
      { intros v b i Hb Hv. pose proof (bound_ineq c v b i Hb (bound_is_finite c v b Hb) Hv) as Hi.
        assert (Hlt : (i < length x)%nat).
        { rewrite Hx, (nx_any st m sp k' Hord Hh Hm E). apply nth_error_Some. rewrite (v2i_at v i Hv). discriminate. }
        destruct (nth_error x i) as [y|] eqn:Ey; [|apply nth_error_None in Ey; lia]. exists y. split; [reflexivity|].
        destruct (Hbox i y Ey) as ((l & u & El & Eu & Hlu) & _). destruct (ckd c); [exact Hi| |].
        - destruct Hi as (u' & Eu' & Hu). rewrite Eu in Eu'. injection Eu' as <-. lra.
        - destruct Hi as (l' & El' & Hl'). rewrite El in El'. injection El' as <-. lra. }
      destruct s as [v b|j sl|j sl].
      - destruct Hs as (_ & Hb & _). destruct (bounds_var c v b Hb) as [i Hv]. destruct (Hbd v b i Hb Hv) as (y & Ey & Hy).
        pose proof (bound_close r c v b ea eb Hin (bound_is_finite c v b Hb) Ha' Hb') as Hc.
        pose proof (Properties_Place.bound_old st m sp Hh Hm cs slots Hp c v b Hin) as Hvk.
        rewrite (Hr v i Hv Hvk) in Ey. injection Ey as <-. unfold rel_within. apply Rabs_le_inv in Hc. destruct (ckd c); [destruct Hy|lra|lra].
      - destruct Hs as (_ & _ & Hsl & (b & Eb) & _). specialize (Hrow j b Eb). apply Rabs_le_inv in Hrow.
        destruct sl as [s|]; cbn [slack_any] in Hsl.
        + destruct Hsl as (_ & _ & Hb). destruct (bounds_var c s _ Hb) as [i Hv]. destruct (Hbd s _ i Hb Hv) as (y & Ey & Hy). rewrite zero_val in Hy.
          pose proof (row_close x r c j (Some s) y b ea eb Hr Hin) as Hc.
          specialize (Hc ltac:(exists i; split; [exact Hv|symmetry; exact (nth_error_nth _ _ _ Ey)]) Eb Ha' Hb'). apply Rabs_le_inv in Hc.
          unfold rel_within. destruct (ckd c); [destruct Hy|lra|lra].
        + pose proof (row_close x r c j None 0 b ea eb Hr Hin eq_refl Eb Ha' Hb') as Hc. apply Rabs_le_inv in Hc.
          rewrite Hsl. cbn [rel_within]. apply Rabs_le. lra.
      - exfalso. exact (F2_in_combine _ _ _ HF _ _ Hin ea eb Ha' Hb').
    Qed.
  End Slots.

  (** ** C70 Points that satisfy the data up to [eps] satisfy the exact model up to [eps] for
      equalities and [2 eps] for inequalities, plus what rounding of the data may matter. *)
  Theorem C70_sound (x : list R) (r : nat -> R) eps :
    data_finite p -> bounds_finite m k -> 0 <= eps -> data_within eps p x -> reads k sp x r ->
    (forall v, model_var m v -> is_integer v = true -> near_integer eps (r (nid v))) /\
    forall c ea eb, In c (md_constraints m) -> has_est st es (clhs c) ea -> has_est st es (crhs c) eb ->
      rel_within (match ckd c with Equal => eps | _ => 2 * eps end + rounding k ea eb r) (ckd c) (exact_value k ea r) (exact_value k eb r).
  Proof.
    intros Hd Hbf He Hx Hr. destruct (C68_constraints fsin fcos st es m sp k' Hl Hm E) as (obj & cs & slots & Em & Hp & HF). split.
    - intros v Hv Hint. destruct (C24_bijection st m sp k' Hh Hm E (no_minus Hord)) as (_ & _ & HA & _).
      pose proof (HA v Hv) as Hin. apply in_map_iff in Hin as ([w i] & Ew & Hin). cbn [fst] in Ew. subst w.
      assert (Hvk : (nid v < k)%nat) by exact (model_var_old v Hv).
      pose proof (Hr v i Hin Hvk) as Ey. destruct Hx as (_ & _ & Hbox). destruct (Hbox i _ Ey) as (_ & Hi). apply Hi.
      rewrite (C28_mask st m sp k' v i Hh Hm E Hin), Hint. reflexivity.
    - intros c ea eb Hc. destruct (F2_some _ _ _ (ar_slots _ _ _ _ _ Hp) c Hc) as [s Hs].
      exact (sound_slot obj cs slots Em Hp HF Hd (Hbf obj cs k' Em) x r eps c s ea eb He Hx Hr Hs).
  Qed.

  Lemma in_uppers0 (slots : list (slot F)) v b c :
    In (v, b, c) (uppers m slots) -> exists sl, In (c, sl) (combine (md_constraints m) slots) /\ ckd c = LessEqual /\
      (sl = SBound v b \/ In v (slack_of sl) /\ fval b = 0).
  Proof.
    unfold uppers. rewrite in_flat_map. intros ([c' sl] & Hc & Hin). unfold upper_of in Hin. cbn [fst snd] in Hin. exists sl.
    destruct (ckd c') eqn:Ek; try (destruct Hin; fail).
    destruct sl as [w x|r [w|]|r [w|]]; try (destruct Hin; fail); destruct Hin as [Hin|[]];
      pose proof (f_equal snd Hin) as E3; pose proof (f_equal (fun x => fst (fst x)) Hin) as E1; pose proof (f_equal (fun x => snd (fst x)) Hin) as E2;
      cbn [fst snd] in E1, E2, E3; rewrite <- E3, <- E1; (split; [exact Hc|]); (split; [exact Ek|]); [left|right|right];
      [rewrite E2; reflexivity|split; [cbn; auto|rewrite <- E2; exact zero_val]|split; [cbn; auto|rewrite <- E2; exact zero_val]].
  Qed.
  Lemma in_lowers0 (slots : list (slot F)) v b c :
    In (v, b, c) (lowers m slots) -> exists sl, In (c, sl) (combine (md_constraints m) slots) /\ ckd c = GreaterEqual /\
      (sl = SBound v b \/ In v (slack_of sl) /\ fval b = 0).
  Proof.
    unfold lowers. rewrite in_flat_map. intros ([c' sl] & Hc & Hin). unfold lower_of in Hin. cbn [fst snd] in Hin. exists sl.
    destruct (ckd c') eqn:Ek; try (destruct Hin; fail).
    destruct sl as [w x|r [w|]|r [w|]]; try (destruct Hin; fail); destruct Hin as [Hin|[]];
      pose proof (f_equal snd Hin) as E3; pose proof (f_equal (fun x => fst (fst x)) Hin) as E1; pose proof (f_equal (fun x => snd (fst x)) Hin) as E2;
      cbn [fst snd] in E1, E2, E3; rewrite <- E3, <- E1; (split; [exact Hc|]); (split; [exact Ek|]); [left|right|right];
      [rewrite E2; reflexivity|split; [cbn; auto|rewrite <- E2; exact zero_val]|split; [cbn; auto|rewrite <- E2; exact zero_val]].
  Qed.

  (** Numbers that satisfy the exact model up to [eps] extend to a point that satisfies the data
      up to [eps] plus what rounding may matter. *)
  Theorem C70_complete (r : nat -> R) eps rho B :
    data_finite p -> 0 <= eps -> 0 <= rho -> B <= 100000000 + eps + rho ->
    exact_within st es m eps rho B r ->
    exists x, data_within (eps + rho) p x /\ reads k sp x r.
  Proof.
    intros Hd He Hrho HB [Hvar Hcon].
    destruct (close_arranged fsin fcos st es m sp k' Hl Hm E) as (obj & cs & slots & Em & Hp & HS & HF).
    destruct (C24_bijection st m sp k' Hh Hm E (no_minus Hord)) as (HB0 & Hinj & HA & _).
    pose proof (nx_any st m sp k' Hord Hh Hm E) as Hnx.
    set (CS := combine (md_constraints m) slots).
    set (P := fun (q : constraint F * slot F) d => exists ea eb, has_est st es (clhs (fst q)) ea /\ has_est st es (crhs (fst q)) eb /\
                rel_within eps (ckd (fst q)) d 0 /\ Rabs d <= B /\ rounding k ea eb r <= rho /\ d = exact_value k ea r - exact_value k eb r).
    assert (HD : exists ds, Forall2 P CS ds).
    { apply Forall_pick. apply Forall_forall. intros [c s] Hcs. rewrite Forall_forall in Hcon.
      destruct (Hcon c (in_combine_l _ _ _ _ Hcs)) as (ea & eb & H1 & H2 & H3 & H4 & H5).
      exists (exact_value k ea r - exact_value k eb r), ea, eb. cbn [fst]. repeat (split; [assumption|]). split; [|auto].
      unfold rel_within in *. destruct (ckd c); [|lra|lra]. replace (exact_value k ea r - exact_value k eb r - 0) with (exact_value k ea r - exact_value k eb r) by ring. exact H3. }
    destruct HD as [ds HD]. pose proof (Properties_Place.cs_len st m sp cs slots Hp) as Hlen.
    set (table := flat_map (fun q => map (fun v => (v, snd q)) (slack_of (snd (fst q)))) (combine CS ds)).
    assert (Htab : map fst table = flat_map slack_of slots).
    { unfold table. rewrite (flat_map_snd slack_of _ _ Hlen). fold CS. clear -HD. induction HD as [|q d CS' ds' _ HD IH]; [reflexivity|].
      cbn [combine flat_map]. rewrite map_app, IH. f_equal. cbn [fst snd]. rewrite map_map. cbn. apply map_id. }
    assert (Hnd : NoDup (map fst table)) by (rewrite Htab; apply (ar_slacks _ _ _ _ _ Hp)).
    assert (Hfun : forall v d d', In (v, d) table -> In (v, d') table -> d = d').
    { clear -Hnd. induction table as [|[w e] l IH]; intros v d d'; cbn; [tauto|]. cbn in Hnd. inversion Hnd as [|? ? Hni Hnd']; subst.
      intros [E1|I1] [E2|I2].
      - congruence.
      - exfalso. apply Hni. injection E1 as <- <-. apply (in_map fst) in I2. exact I2.
      - exfalso. apply Hni. injection E2 as <- <-. apply (in_map fst) in I1. exact I1.
      - exact (IH Hnd' v d d' I1 I2). }
    assert (Hnew : forall v d, In (v, d) table -> (k <= nid v)%nat /\ is_integer v = false /\ Rabs d <= B).
    { intros v d Hin. unfold table in Hin. apply in_flat_map in Hin as ([[c s] d0] & Hcs & Hin). cbn [fst snd] in Hin.
      apply in_map_iff in Hin as (w & Ew & Hw). injection Ew as -> <-.
      destruct (F2_in_combine _ _ _ HD _ _ Hcs) as (ea & eb & _ & _ & _ & Hbd & _).
      apply in_combine_l in Hcs. pose proof (F2_in_combine _ _ _ (ar_slots _ _ _ _ _ Hp) _ _ Hcs) as Hs.
      assert (Hso : slack_any k cs c (Some v)).
      { destruct s as [? ?|? [?|]|? [?|]]; cbn [slack_of In] in Hw; try contradiction; destruct Hw as [->|[]]; apply Hs. }
      destruct Hso as (Hk & (i & nm & ->) & _). auto. }
    set (val := fun v : node F => match find (fun e => Nat.eqb (nid (fst e)) (nid v)) table with Some e => snd e | None => r (nid v) end).
    assert (Hval1 : forall v, (nid v < k)%nat -> val v = r (nid v)).
    { intros v Hv. unfold val. destruct (find _ table) as [[w d]|] eqn:Ef; [|reflexivity]. exfalso.
      apply find_some in Ef as [Hin Hid]. apply Nat.eqb_eq in Hid. cbn [fst] in Hid. destruct (Hnew w d Hin) as [Hk _]. lia. }
    assert (Hkin : forall v d, In (v, d) table -> exists i, In (v, i) (sp_var2index sp)).
    { intros v d Hin. assert (Hv : In v (map fst (sp_var2index sp))).
      { apply HS. right. rewrite <- Htab. apply (in_map fst) in Hin. exact Hin. }
      apply in_map_iff in Hv as ([w i] & <- & Hv). eauto. }
    assert (Hval2 : forall v d, In (v, d) table -> val v = d).
    { intros v d Hin. unfold val. destruct (find _ table) as [[w d']|] eqn:Ef.
      - apply find_some in Ef as [Hin' Hid]. apply Nat.eqb_eq in Hid. cbn [fst] in Hid. cbn [snd].
        destruct (Hkin _ _ Hin) as [i Hi1]. destruct (Hkin _ _ Hin') as [j Hj1].
        destruct (Hinj _ _ _ _ Hj1 Hi1 Hid) as [-> _]. exact (Hfun _ _ _ Hin' Hin).
      - exfalso. apply (find_none _ _ Ef) in Hin. cbn [fst] in Hin. rewrite Nat.eqb_refl in Hin. discriminate. }
    assert (Hslk : forall q d v, In (q, d) (combine CS ds) -> In v (slack_of (snd q)) -> val v = d).
    { intros q d v Hq Hv. apply Hval2. unfold table. apply in_flat_map. exists (q, d). split; [exact Hq|]. cbn [fst snd].
      apply in_map_iff. eauto. }
    set (x := map (fun vi => val (fst vi)) (sp_var2index sp)).
    assert (Hxn : forall v i, In (v, i) (sp_var2index sp) -> nth_error x i = Some (val v)).
    { intros v i Hv. unfold x. rewrite nth_error_map, (v2i_at v i Hv). reflexivity. }
    assert (Hreads : reads k sp x r).
    { intros v i Hv Hk. rewrite (Hxn v i Hv), (Hval1 v Hk). reflexivity. }
    exists x. split; [|exact Hreads]. split; [unfold x; rewrite map_length; auto|]. split.
    - intros j b Hb. assert (Hj : In j (flat_map row_no slots)).
      { rewrite (ar_rows _ _ _ _ _ Hp). apply in_seq. split; [lia|]. apply nth_error_Some. rewrite Hb. discriminate. }
      rewrite (flat_map_snd row_no _ _ Hlen) in Hj. apply in_flat_map in Hj as ([c s] & Hcs & Hj). cbn [snd] in Hj.
      destruct s as [? ?|j' sl|? ?]; cbn [row_no In] in Hj; try contradiction. destruct Hj as [->|[]].
      destruct (F2_some _ _ _ HD _ Hcs) as [d Hdq]. destruct (F2_in_combine _ _ _ HD _ _ Hdq) as (ea & eb & Hea & Heb & Hrel & Hbd & Hro & Ed).
      cbn [fst] in *. pose proof (F2_in_combine _ _ _ (ar_slots _ _ _ _ _ Hp) _ _ Hcs) as (_ & _ & Hsl & _).
      assert (Hy : slack_num x sl (match sl with Some _ => d | None => 0 end)).
      { destruct sl as [s|]; cbn [slack_num]; [|reflexivity]. destruct Hsl as (_ & _ & Hbw). destruct (bounds_var obj cs Em c s _ Hbw) as [i Hv].
        exists i. split; [exact Hv|]. rewrite (nth_error_nth _ _ _ (Hxn s i Hv)). symmetry. apply (Hslk _ _ s Hdq). cbn. auto. }
      pose proof (row_close cs slots Hp HF Hd x r c j sl _ b ea eb Hreads Hcs Hy Hb Hea Heb) as Hc.
      rewrite <- Ed in Hc. apply Rabs_le_inv in Hc. apply Rabs_le. destruct sl as [s|]; [lra|]. cbn [slack_any] in Hsl. rewrite Hsl in Hrel. cbn in Hrel.
      apply Rabs_le_inv in Hrel. lra.
    - intros i y Hy. unfold x in Hy. rewrite nth_error_map in Hy. destruct (nth_error (sp_var2index sp) i) as [[v i']|] eqn:Ev; [|discriminate].
      cbn in Hy. injection Hy as <-. pose proof (nth_error_In _ _ Ev) as Hv0.
      assert (i' = i). { pose proof (v2i_at v i' Hv0) as G. assert (Hs : nth_error (map snd (sp_var2index sp)) i = Some i') by (rewrite nth_error_map, Ev; reflexivity).
        rewrite HB0 in Hs. assert (Hlt : (i < length (seq 0 (m_nx (base_of p))))%nat) by (apply nth_error_Some; rewrite Hs; discriminate).
        rewrite seq_length in Hlt. apply nth_error_nth with (d := 0%nat) in Hs. rewrite seq_nth in Hs by exact Hlt. cbn in Hs. auto. }
      subst i'. rename Hv0 into Hv.
      assert (HvB : Rabs (val v) <= B /\ (is_integer v = true -> near_integer eps (val v))).
      { destruct (proj1 (HS v) (in_map fst _ _ Hv)) as [Hmv|Hsv].
        - rewrite (Hval1 v (model_var_old v Hmv)). exact (Hvar v Hmv).
        - rewrite <- Htab in Hsv. apply in_map_iff in Hsv as ([w d] & Ew & Hin). cbn [fst] in Ew. subst w.
          destruct (Hnew v d Hin) as (_ & Hni & Hbd). rewrite (Hval2 v d Hin), Hni. split; [exact Hbd|discriminate]. }
      destruct HvB as [HvB Hint]. apply Rabs_le_inv in HvB.
      assert (Hbnd : forall c sl b, In (c, sl) CS -> (sl = SBound v b \/ In v (slack_of sl) /\ fval b = 0) -> finite64 b ->
                match ckd c with Equal => True | LessEqual => val v <= fval b + (eps + rho) | GreaterEqual => val v >= fval b - (eps + rho) end).
      { intros c sl b Hcs Hsl Hfb. destruct (F2_some _ _ _ HD _ Hcs) as [d Hdq].
        destruct (F2_in_combine _ _ _ HD _ _ Hdq) as (ea & eb & Hea & Heb & Hrel & Hbd & Hro & Ed). cbn [fst] in *.
        destruct Hsl as [->|[Hsl Hz]].
        - pose proof (bound_close cs slots Hp HF r c v b ea eb Hcs Hfb Hea Heb) as Hc.
          pose proof (Properties_Place.bound_old st m sp Hh Hm cs slots Hp c v b Hcs) as Hvk. rewrite (Hval1 v Hvk).
          rewrite <- Ed in Hc. apply Rabs_le_inv in Hc. unfold rel_within in Hrel. destruct (ckd c); [exact I|lra|lra].
        - rewrite (Hslk _ _ v Hdq Hsl), Hz. unfold rel_within in Hrel. destruct (ckd c); [exact I|lra|lra]. }
      destruct (tightest_any st m sp k' obj cs slots Hord Hh Hm E Em Hp v i Hv) as [(u & Eu & _ & _ & Hcu) (l & El & _ & _ & Hcl)].
      destruct Hd as (_ & _ & Dl & Du & _). rewrite Forall_forall in Dl, Du. split.
      + exists l, u. split; [exact El|]. split; [exact Eu|]. split.
        * destruct (hget Nat.eqb i (sp_lcons sp)) as [c|].
          -- destruct Hcl as (l1 & l2 & Els & _).
             assert (Hin : In (v, l, c) (lowers m slots)) by (rewrite Els; apply in_or_app; cbn; auto).
             destruct (in_lowers0 slots v l c Hin) as (sl & Hcs & Ek & Hsl). pose proof (Hbnd c sl l Hcs Hsl (Dl l (nth_error_In _ _ El))) as G. rewrite Ek in G. lra.
          -- destruct Hcl as [-> _]. replace (fval (nneg INF)) with (-100000000); [lra|]. symmetry. exact (proj2 (flit_int (-100000000) ltac:(lia))).
        * destruct (hget Nat.eqb i (sp_ucons sp)) as [c|].
          -- destruct Hcu as (l1 & l2 & Els & _).
             assert (Hin : In (v, u, c) (uppers m slots)) by (rewrite Els; apply in_or_app; cbn; auto).
             destruct (in_uppers0 slots v u c Hin) as (sl & Hcs & Ek & Hsl). pose proof (Hbnd c sl u Hcs Hsl (Du u (nth_error_In _ _ Eu))) as G. rewrite Ek in G. lra.
          -- destruct Hcu as [-> _]. replace (fval INF) with 100000000; [lra|]. symmetry. exact (proj2 (flit_int 100000000 ltac:(lia))).
      + intros Hmask. rewrite (C28_mask st m sp k' v i Hh Hm E Hv) in Hmask. injection Hmask as Hmask. destruct (Hint Hmask) as [z Hz]. exists z. lra.
  Qed.

  (** The objective the solver is given, plus the constant that is not part of the problem,
      against the exact objective. *)
  Theorem C70_objective (x : list R) (r : nat -> R) e :
    data_finite p -> length x = m_nx (base_of p) -> reads k sp x r -> obj_est st es (md_objective m) e ->
    Rabs (dotR (lin_c p) x + a_coef e None - exact_value k e r) <= obj_rounding k e r.
  Proof.
    intros Hd Hx Hr He. destruct (C68_objective fsin fcos st es m sp k' e Hl Hm E He) as (Hlen & Hc & Hz).
    destruct (C24_bijection st m sp k' Hh Hm E (no_minus Hord)) as (HB0 & Hinj & _).
    set (L := map (fun vi : node F * nat => (nid (fst vi), fval (nth (snd vi) (lin_c p) (flit 0)), nth (snd vi) x 0)) (sp_var2index sp)).
    assert (Edot : dotR (lin_c p) x = esum L).
    { unfold dotR, esum, L. rewrite map_map. cbn [fst snd].
      rewrite <- (map_map snd (fun i => fval (nth i (lin_c p) (flit 0)) * nth i x 0)), HB0. rewrite <- Hlen in Hx |- *. clear -Hx.
      revert x Hx. induction (lin_c p) as [|c l IH]; intros [|y x] Hx; try discriminate; [reflexivity|].
      cbn [combine map length seq fold_right fst snd nth]. rewrite (IH x) by (cbn in Hx; lia). rewrite <- seq_shift, map_map. reflexivity. }
    destruct Hd as (_ & _ & _ & _ & Dc). rewrite Forall_forall in Dc.
    assert (Hclose : Rabs (esum L - cells k (fun c0 => a_coef e (Some c0) * r c0)) <=
                     cells k (fun c0 => error_bound (a_ops e) (a_mag e (Some c0)) * Rabs (r c0))).
    { apply esum_close.
      - unfold L. rewrite map_map. cbn [fst]. assert (Hn : NoDup (map snd (sp_var2index sp))) by (rewrite HB0; apply seq_NoDup).
        clear -Hn Hinj. induction (sp_var2index sp) as [|[v i] l IH]; cbn [map] in *; [constructor|]. apply NoDup_cons_iff in Hn as [Hi Hn].
        constructor; [|apply IH; [intros; eapply Hinj; cbn; eauto|exact Hn]]. intros Hin. apply in_map_iff in Hin as ([w j] & Eq & Hin). cbn [fst] in Eq.
        destruct (Hinj w v j i (or_intror Hin) (or_introl eq_refl) Eq) as [_ ->]. apply Hi. apply (in_map snd) in Hin. exact Hin.
      - intros c0 a y Hin. unfold L in Hin. apply in_map_iff in Hin as ([v i] & Eq & Hv). cbn [fst snd] in Eq. injection Eq as <- <- <-.
        destruct (Hc v i Hv) as (q & Eq & Hold & Hnew). rewrite (nth_error_nth _ _ _ Eq).
        destruct (Nat.lt_ge_cases (nid v) k) as [Hk|Hk].
        + left. split; [exact Hk|]. exact (nth_error_nth _ _ _ (Hr v i Hv Hk)).
        + right. rewrite (Hnew Hk). exact (proj2 (flit_int 0 ltac:(lia))).
      - intros c0 a y Hk Hin. unfold L in Hin. apply in_map_iff in Hin as ([v i] & Eq & Hv). cbn [fst snd] in Eq. injection Eq as <- <- <-.
        destruct (Hc v i Hv) as (q & Eq & Hold & _). rewrite (nth_error_nth _ _ _ Eq). destruct (Hold Hk) as [_ G].
        rewrite <- float_value_fval. apply G. exact (proj2 (Dc q (nth_error_In _ _ Eq))).
      - intros c0 _ Hno. pose proof (Hz c0) as G. unfold near in G. apply G. intros v i Hv Ev. subst c0.
        apply (Hno (fval (nth i (lin_c p) (flit 0))) (nth i x 0)). unfold L. apply in_map_iff. exists (v, i). auto. }
    rewrite Edot. unfold exact_value, obj_rounding. rewrite <- bound_cells.
    match goal with |- Rabs ?t <= _ => replace t with (esum L - cells k (fun c0 => a_coef e (Some c0) * r c0)) by ring end. exact Hclose.
  Qed.

  (** A point that is optimal for the data up to [delta], among the points that satisfy the data
      up to [eta], is optimal for the exact model up to [delta] and the rounding of the objective,
      among the numbers for which everything is within [eta]. *)
  Theorem C70_optimal (x : list R) (r : nat -> R) eta delta e :
    data_finite p -> length x = m_nx (base_of p) -> reads k sp x r -> obj_est st es (md_objective m) e ->
    (forall y, data_within eta p y -> dotR (lin_c p) x <= dotR (lin_c p) y + delta) ->
    forall r' eps rho, 0 <= eps -> 0 <= rho -> eps + rho <= eta -> exact_within st es m eps rho 100000000 r' ->
      exact_value k e r <= exact_value k e r' + delta + obj_rounding k e r + obj_rounding k e r'.
  Proof.
    intros Hd Hx Hr He Hopt r' eps rho Hep Hrho Heta Hex.
    destruct (C70_complete r' eps rho 100000000 Hd Hep Hrho ltac:(lra) Hex) as (y & Hy & Hry).
    pose proof (C70_objective x r e Hd Hx Hr He) as O1. pose proof (C70_objective y r' e Hd (proj1 Hy) Hry He) as O2.
    assert (Hy' : data_within eta p y).
    { destruct Hy as (Y1 & Y2 & Y3). split; [exact Y1|]. split.
      - intros j b Hb. specialize (Y2 j b Hb). lra.
      - intros i z Hz. destruct (Y3 i z Hz) as ((l & u & El & Eu & Hlu) & Hint). split; [exists l, u; repeat split; auto; lra|].
        intros Hmk. destruct (Hint Hmk) as [t Ht]. exists t. lra. }
    specialize (Hopt y Hy'). apply Rabs_le_inv in O1, O2. lra.
  Qed.
End Props.

Section Solve.
  Variables fsin fcos : F -> F.
  Notation NF := (NumF fsin fcos).
  Local Instance num_g : Num F := NF.

  (** End to end: what the numbers recorded by a successful solve say about the exact model.
      [r] gives the recorded numbers to the cells of the variables. *)
  Theorem C70_solve {HO : HashOrd} (st : mstate F) (es : list aest) solver m m' k' eps eta delta e :
    @lin_hist NF st es -> In m (st_models st) -> solve solver m (st_k st) = (m', Returned (inl tt), k') ->
    0 <= eps -> bounds_finite m (st_k st) -> obj_est st es (md_objective m) e ->
    (forall sp stat s, std_problem m (st_k st) = Ok (sp, k') -> solver (sp_prob sp) = Ok (inl (stat, s)) ->
       data_finite (sp_prob sp) /\ data_within eps (sp_prob sp) (map fval (s_x s)) /\
       forall y, data_within eta (sp_prob sp) y -> dotR (lin_c (sp_prob sp)) (map fval (s_x s)) <= dotR (lin_c (sp_prob sp)) y + delta) ->
    forall r, (forall v y, In (v, y) (md_primals m') -> (nid v < st_k st)%nat -> r (nid v) = fval y) ->
    (forall v, model_var m v -> is_integer v = true -> near_integer eps (r (nid v))) /\
    (forall c ea eb, In c (md_constraints m) -> has_est st es (clhs c) ea -> has_est st es (crhs c) eb ->
       rel_within (match ckd c with Equal => eps | _ => 2 * eps end + rounding (st_k st) ea eb r) (ckd c)
         (exact_value (st_k st) ea r) (exact_value (st_k st) eb r)) /\
    (forall r' eps' rho', 0 <= eps' -> 0 <= rho' -> eps' + rho' <= eta -> exact_within st es m eps' rho' 100000000 r' ->
       exact_value (st_k st) e r <= exact_value (st_k st) e r' + delta + obj_rounding (st_k st) e r + obj_rounding (st_k st) e r').
  Proof.
    intros Hl Hm Es He Hbf Hobj Hsol r Hr. pose proof (lin_any fsin fcos st es Hl) as Hh'.
    destruct (C33_primals st solver m m' k' Hh' Hm Es) as (sp & stat & s & Esp & Eso & _ & _ & _ & Hval).
    destruct (Hsol sp stat s Esp Eso) as (Hd & Hx & Hopt).
    assert (Hreads : reads (st_k st) sp (map fval (s_x s)) r).
    { intros v i Hv Hk. destruct (Hval v i Hv) as (x & Ex & Hin & _). rewrite (Hr v x Hin Hk). exact (map_nth_error fval i (s_x s) Ex). }
    destruct (C70_sound fsin fcos st es m sp k' Hl Hm Esp (map fval (s_x s)) r eps Hd Hbf He Hx Hreads) as [HI HC].
    split; [exact HI|]. split; [exact HC|].
    exact (C70_optimal fsin fcos st es m sp k' Hl Hm Esp (map fval (s_x s)) r eta delta e Hd (proj1 Hx) Hreads Hobj Hopt).
  Qed.
End Solve.

(** ** The hypotheses are met by a model with coefficients that do round: minimise 0.1 x + 0.2 x
    subject to 0.1 x + 0.2 x + 3 y <= 1 and x >= 0 with integer y, and a solver that returns
    x = y = 0 (exactly feasible here), which is optimal up to 1/1000 among the points that satisfy the data up to
    1/1000; and the other numbers range over something: x = y = 0 is such a point. *)
Lemma unit_tiny : 0 < unit_roundoff <= / 1000000 /\ 0 < tiny <= / 1000000.
Proof.
  unfold unit_roundoff, tiny.
  assert (H1 : 0 < 2 ^ 20) by (apply pow_lt; lra).
  assert (H2 : 2 ^ 20 <= 2 ^ 53) by (apply Rle_pow; [lra|lia]).
  assert (H3 : 2 ^ 20 <= 2 ^ 1022) by (apply Rle_pow; [lra|lia]).
  assert (H4 : 1000000 <= 2 ^ 20) by (cbn [pow]; lra).
  split; (split; [apply Rinv_0_lt_compat; lra|apply Rinv_le_contravar; lra]).
Qed.
Lemma bound_small ops mag : (ops <= 10)%nat -> 0 <= mag <= 10 -> 0 <= error_bound ops mag <= / 1000.
Proof.
  intros Ho Hm. unfold error_bound. destruct unit_tiny as [Hu _].
  assert (H1 : 1 <= (1 + unit_roundoff) ^ ops) by (apply pow_R1_Rle; lra).
  assert (H2 : (1 + unit_roundoff) ^ ops <= (1 + unit_roundoff) ^ 10) by (apply Rle_pow; [lra|lia]).
  assert (H3 : (1 + unit_roundoff) ^ 10 <= (1 + / 1000000) ^ 10) by (apply pow_incr; lra).
  assert (H4 : (1 + / 1000000) ^ 10 <= 1 + / 10000) by (cbn [pow]; lra).
  split; [apply Rmult_le_pos; lra|]. apply Rle_trans with (/ 10000 * 10); [|lra]. apply Rmult_le_compat; lra.
Qed.

Example C70_hypotheses : exists st es solver m m' k' e,
  @lin_hist NumF0 st es /\ In m (st_models st) /\ @solve F NumF0 ord_id solver m (st_k st) = (m', Returned (inl tt), k') /\
  @bounds_finite NumF0 ord_id m (st_k st) /\ obj_est st es (md_objective m) e /\
  (forall sp stat s, @std_problem F NumF0 ord_id m (st_k st) = Ok (sp, k') -> solver (sp_prob sp) = Ok (inl (stat, s)) ->
     data_finite (sp_prob sp) /\ data_within 0 (sp_prob sp) (map fval (s_x s)) /\
     forall y, data_within (/ 1000) (sp_prob sp) y -> dotR (lin_c (sp_prob sp)) (map fval (s_x s)) <= dotR (lin_c (sp_prob sp)) y + / 1000) /\
  exact_within st es m 0 (/ 1000) 100000000 (fun _ => 0) /\
  a_coef e (Some 0%nat) = float_value (f_ratio 1 10) * 1 + float_value (f_ratio 2 10) * 1.
Proof.
  pose proof (@lh_start NumF0) as Hl.
  lin_next (@CExpr F (OVar "x" VarContinuous)) ltac:(lin_expr ae_var).
  lin_next (@CExpr F (OVar "y" VarInteger)) ltac:(lin_expr ae_var).
  lin_next (@CExpr F (OMulSN (f_ratio 1 10) 0)) ltac:(lin_expr ae_mul_sn).
  lin_next (@CExpr F (OMulSN (f_ratio 2 10) 0)) ltac:(lin_expr ae_mul_sn).
  lin_next (@CExpr F (OMulSN (flit 3) 1)) ltac:(lin_expr ae_mul_sn).
  lin_next (@CExpr F (OAddNN 2 3)) ltac:(lin_expr ae_add_nn).
  lin_next (@CExpr F (OAddNN 5 4)) ltac:(lin_expr ae_add_nn).
  lin_next (@CCmpNS F 6 LessEqual (flit 1) "row") ltac:(apply lc_ns; lin_finite).
  lin_next (@CCmpNS F 0 GreaterEqual (flit 0) "bound") ltac:(apply lc_ns; lin_finite).
  lin_next (@CNewModel F) ltac:(apply lc_new).
  lin_next (@CSetObj F 0 Minimise 5) ltac:(apply lc_obj).
  lin_next (@CAddConstrs F 0 [0; 1]%nat) ltac:(apply lc_adds).
  pose (solver := fun _ : problem F => Ok (inl (Solved, mk_sol [flit (-1); flit 0; flit 0] [flit 0] [] [flit 0; flit 0; flit 0] [flit 0; flit 0; flit 0])) : res (answer (T := F))).
  match type of Hl with lin_hist ?st ?es0 =>
    pose (es1 := es0);
    match eval cbn [st_models] in (st_models st) with [?m0] => set (m := m0) end;
    assert (C : match @std_problem F NumF0 ord_id m (st_k st) with
               | Ok (sp, _) => (lin_c (sp_prob sp), m_b (base_of (sp_prob sp)), entries (m_a (base_of (sp_prob sp))), m_l (base_of (sp_prob sp)), m_u (base_of (sp_prob sp)), m_p (base_of (sp_prob sp)), m_nx (base_of (sp_prob sp)))
                   = ([flit 0; SFadd 53 1024 (f_ratio 1 10) (f_ratio 2 10); flit 0], [flit 1], [(0%nat, 1%nat, SFadd 53 1024 (f_ratio 1 10) (f_ratio 2 10)); (0%nat, 2%nat, flit 3); (0%nat, 0%nat, flit (-1))],
                      [flit (-100000000); SFopp (flit 0); flit (-100000000)], [flit 0; flit 100000000; flit 100000000], [false; false; true], 3%nat)
               | Panic _ => False end) by (vm_compute; reflexivity);
    assert (B : match @model_std F NumF0 ord_id m (st_k st) with
               | Ok (_, cs, _) => Forall (fun e => finite64 (snd (fst e))) (cs_u cs) /\ Forall (fun e => finite64 (snd (fst e))) (cs_l cs)
               | Panic _ => False end) by (vm_compute; repeat constructor);
    assert (D : match @solve F NumF0 ord_id solver m (st_k st), @std_problem F NumF0 ord_id m (st_k st) with
               | (_, Returned (inl tt), k1), Ok (_, k2) => k1 = k2
               | _, _ => False end) by (vm_compute; reflexivity);
    destruct (@solve F NumF0 ord_id solver m (st_k st)) as [[m' [[[]|]|]] k1] eqn:Es; try (destruct D; fail);
    destruct (@std_problem F NumF0 ord_id m (st_k st)) as [[sp k2]|] eqn:Esp; [|destruct C]
  end.
  subst k2. set (c3 := SFadd 53 1024 (f_ratio 1 10) (f_ratio 2 10)) in *.
  pose proof (f_equal snd C) as C7. pose proof (f_equal (fun t => snd (fst t)) C) as C6. pose proof (f_equal (fun t => snd (fst (fst t))) C) as C5.
  pose proof (f_equal (fun t => snd (fst (fst (fst t)))) C) as C4. pose proof (f_equal (fun t => snd (fst (fst (fst (fst t))))) C) as C3.
  pose proof (f_equal (fun t => snd (fst (fst (fst (fst (fst t)))))) C) as C2. pose proof (f_equal (fun t => fst (fst (fst (fst (fst (fst t)))))) C) as C1.
  cbn [fst snd] in C1, C2, C3, C4, C5, C6, C7. clear C.
  assert (V : forall z, (-100000000 <= z <= 100000000)%Z -> finite64 (flit z) /\ fval (flit z) = IZR z).
  { intros z Hz. destruct (flit_int z ltac:(lia)) as [G1 G2]. split; [exact (proj2 (finite_fin _) G1)|exact G2]. }
  assert (V3 : finite64 c3 /\ 0 <= fval c3 <= 1).
  { assert (Hf : finite64 c3) by lin_finite. split; [exact Hf|]. destruct (V 0%Z ltac:(lia)) as [H0 E0]. destruct (V 1%Z ltac:(lia)) as [H1 E1].
    assert (G0 : SFleb (flit 0) c3 = true) by (vm_compute; reflexivity). assert (G1 : SFleb c3 (flit 1) = true) by (vm_compute; reflexivity).
    pose proof (fle (flit 0) c3 H0 Hf G0) as L0. pose proof (fle c3 (flit 1) Hf H1 G1) as L1. rewrite E0 in L0. rewrite E1 in L1. split; assumption. }
  clearbody c3.
  assert (Vn : finite64 (SFopp (flit 0)) /\ fval (SFopp (flit 0)) = 0) by (split; [lin_finite|reflexivity]).
  destruct V3 as [V3 V3r]. destruct Vn as [Vn Vnr].
  pose proof (V 0%Z ltac:(lia)) as [F0 E0]. pose proof (V 1%Z ltac:(lia)) as [F1 E1]. pose proof (V (-1)%Z ltac:(lia)) as [Fm Em1].
  pose proof (V 3%Z ltac:(lia)) as [F3 E3]. pose proof (V 100000000%Z ltac:(lia)) as [Fb Eb]. pose proof (V (-100000000)%Z ltac:(lia)) as [Fc Ec].
  eexists _, _, solver, m, m', k1, _. split; [exact Hl|]. split; [left; reflexivity|]. split; [exact Es|]. split; [|split; [|split; [|split]]].
  - intros obj cs k' Em. rewrite Em in B. exact B.
  - left. exists 5%nat. split; reflexivity.
  - intros sp0 stat s Esp0 Eso. pose proof (eq_trans (eq_sym Esp) Esp0) as Eq. injection Eq as <-. assert (Hs : s_x s = [flit (-1); flit 0; flit 0]) by (injection Eso as _ <-; reflexivity). rewrite Hs. cbn [map].
    rewrite Em1, E0. split; [|split].
    + unfold data_finite. rewrite C1, C2, C3, C4, C5. repeat (constructor; auto).
    + unfold data_within, rowR. rewrite C2, C3, C4, C5, C6, C7. split; [reflexivity|]. split.
      * intros [|[|r]] b Hb; cbn [nth_error] in Hb; [|discriminate Hb|discriminate Hb]. apply (f_equal (fun o => match o with Some x => x | None => b end)) in Hb. cbv beta iota in Hb. subst b.
        rewrite E1. cbn [filter fst snd Nat.eqb map fold_right nth]. rewrite Em1. apply Rabs_le. lra.
      * intros i y Hy. split.
        -- destruct i as [|[|[|[|i]]]]; cbn [nth_error] in Hy; [| | |discriminate Hy|discriminate Hy]; injection Hy as <-; cbn [nth_error].
           ++ exists (flit (-100000000)), (flit 0). repeat split; lra.
           ++ exists (SFopp (flit 0)), (flit 100000000). repeat split; lra.
           ++ exists (flit (-100000000)), (flit 100000000). repeat split; lra.
        -- destruct i as [|[|[|[|i]]]]; cbn [nth_error] in Hy |- *; [intros G; discriminate G|intros G; discriminate G| |discriminate Hy|discriminate Hy]. injection Hy as <-. intros _. exists 0%Z. apply Rabs_le. lra.
    + intros y (Hy & _ & Hbox). rewrite C7 in Hy. destruct y as [|y0 [|y1 [|y2 [|y3 y]]]]; [discriminate Hy|discriminate Hy|discriminate Hy| |discriminate Hy].
      destruct (Hbox 1%nat y1 eq_refl) as ((l & u & El & _ & Hl1) & _). rewrite C4 in El. cbn [nth_error] in El.
      apply (f_equal (fun o => match o with Some x => x | None => l end)) in El. cbv beta iota in El. subst l. rewrite C1. unfold dotR. cbn [combine map fold_right fst snd].
      rewrite E0. assert (G : fval c3 * (y1 + / 1000) >= 0) by (apply Rle_ge, Rmult_le_pos; lra). nra.
  - split.
    + intros v _. rewrite Rabs_R0. split; [lra|]. intros _. exists 0%Z. apply Rabs_le. lra.
    + constructor; [|constructor; [|constructor]].
      * eexists _, (a_num (flit 1)). split; [left; exists 6%nat; split; reflexivity|]. split; [right; eexists _, (flit 1); split; [reflexivity|split; [exact F1|reflexivity]]|].
        unfold rounding. unfold rel_within, exact_value, magnitude. cbn [ckd st_k cells a_sub a_add a_scale a_num a_var a_coef a_mag a_ops]. cbn [Nat.add Nat.mul].
        rewrite !float_value_fval, E1. repeat (rewrite Rabs_R0 || rewrite Rmult_0_r). 
        repeat split; try lra; [apply Rabs_le; lra|]. apply bound_small; [lia|]. rewrite !Rplus_0_r. cbn [INR]. rewrite (Rabs_right 1) by lra.
        destruct unit_tiny as [_ Ht]. lra.
      * eexists _, (a_num (flit 0)). split; [left; exists 0%nat; split; reflexivity|]. split; [right; eexists _, (flit 0); split; [reflexivity|split; [exact F0|reflexivity]]|].
        unfold rounding. unfold rel_within, exact_value, magnitude. cbn [ckd st_k cells a_sub a_add a_scale a_num a_var a_coef a_mag a_ops]. cbn [Nat.add Nat.mul].
        rewrite !float_value_fval, E0. repeat (rewrite Rabs_R0 || rewrite Rmult_0_r). 
        repeat split; try lra; [apply Rabs_le; lra|]. apply bound_small; [lia|]. lra.
  - reflexivity.
Qed.
