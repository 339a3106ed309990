(** The functions that the constraints of integer polynomials contribute. *)
From Verif Require Import Base Num Node NodeInd NodeDiff NodeStd Constraint Matrix Problem ModelStd
     ExprSpec World MapProofs StdPropProofs EvalProofs DiffSpec DiffProofs PanicProofs GradProofs HessProofs CompProofs
     OccProofs ConstrSpec ConstrProofs ConstrEquiv PartsProofs StdFacts JacProofs Properties_Exact
     FmtProofs ExactSpec ExactSim ExactF PolySpec DegProofs PolyProofs PolyComp PolyModelSpec PolyHist.
From Coq Require Import Reals Lra Floats.SpecFloat NArith.
Local Open Scope R_scope.

(** *** Derivatives of a function minus a cell *)
Lemma cd_minus f g c r l m : cell_derivative f c r l -> cell_derivative g c r m -> cell_derivative (fun x => f x - g x) c r (l - m).
Proof. intros Hf Hg. unfold cell_derivative in *. exact (derivable_pt_lim_minus _ _ _ _ _ Hf Hg). Qed.
Lemma cd_cell s c r : cell_derivative (fun x => x s) c r (if (s =? c)%nat then 1 else 0).
Proof.
  unfold cell_derivative, set_cell. destruct (s =? c)%nat eqn:E.
  - apply derivable_pt_lim_id.
  - apply (derivable_pt_lim_const (r s)).
Qed.
Lemma cd_minus_cell f s c r l : cell_derivative f c r l -> cell_derivative (fun x => f x - x s) c r (l - (if (s =? c)%nat then 1 else 0)).
Proof. intros Hf. apply cd_minus; [exact Hf|apply cd_cell]. Qed.
Lemma cd2_minus_cell f s c c' r l : cell_derivative2 f c c' r l -> cell_derivative2 (fun x => f x - x s) c c' r l.
Proof.
  intros (D & H1 & H2). exists (fun x => D x - (if (s =? c)%nat then 1 else 0)). split.
  - intros x. apply cd_minus_cell. apply H1.
  - replace l with (l - 0) by lra. apply (cd_minus D (fun _ => if (s =? c)%nat then 1 else 0)); [exact H2|]. unfold cell_derivative. apply derivable_pt_lim_const.
Qed.
Lemma dsize_mono w w' g g' : (w <= w')%N -> (g <= g')%nat -> (dsize w g <= dsize w' g')%N.
Proof. intros Hw Hg. unfold dsize. apply N.add_le_mono_l. apply N.mul_le_mono; [exact Hw|lia]. Qed.
Lemma d2size_mono w w' g g' : (w <= w')%N -> (g <= g')%nat -> (d2size w g <= d2size w' g')%N.
Proof. intros Hw Hg. unfold d2size. apply dsize_mono; [apply dsize_mono; assumption|lia]. Qed.

Section PolyParts.
  Variables fsin fcos : F -> F.
  Notation NF := (NumF fsin fcos).
  Local Instance num_f : Num F := NF.
  Notation at_int r := (fun i => IZR (r i)).
  Notation facts := (facts fsin fcos).

  Definition known (v f : node F) : Prop := occurs v f \/ absent v f.
  (** The entries [gs] and [hs] hold the derivatives of [f], whose polynomial is [p]. *)
  Record fun_ok (V : N) (f : node F) (gs : list (node F * node F)) (hs : list (node F * node F * node F)) (p : ipoly) : Prop := {
    fo_val : forall r vs, stand_for V r vs f -> exists z, integer (@evaluate F NF vs f) z /\ q_val p (at_int r) = IZR z;
    fo_grad : (dsize (q_size p) (q_degree p) <= exact_limit)%N -> forall r vs, stand_for V r vs f -> forall v, known v f ->
      (exists d z, In (v, d) gs /\ integer (@evaluate F NF vs d) z /\ cell_derivative (q_val p) (nid v) (at_int r) (IZR z)) \/
      (~ In v (map fst gs) /\ cell_derivative (q_val p) (nid v) (at_int r) 0);
    fo_hess : (dsize (q_size p) (q_degree p) <= exact_limit)%N -> (d2size (q_size p) (q_degree p) <= exact_limit)%N ->
      forall r vs, stand_for V r vs f -> forall v w, known v f -> known w f ->
      (exists d z, (In (v, w, d) hs \/ In (w, v, d) hs) /\ integer (@evaluate F NF vs d) z /\
         cell_derivative2 (q_val p) (nid v) (nid w) (at_int r) (IZR z) /\ cell_derivative2 (q_val p) (nid w) (nid v) (at_int r) (IZR z)) \/
      (~ In (v, w) (map fst hs) /\ ~ In (w, v) (map fst hs) /\
         cell_derivative2 (q_val p) (nid v) (nid w) (at_int r) 0 /\ cell_derivative2 (q_val p) (nid w) (nid v) (at_int r) 0)
  }.
  Lemma ptr_dec (a b : node F) : is_var a = true -> {a = b} + {a <> b}.
  Proof.
    intros Ha. destruct a as [|i s kd| | | | |]; try discriminate Ha. destruct b as [|j s' kd'| | | | |]; try (right; discriminate).
    destruct (Nat.eq_dec i j) as [->|Hn]; [|right; intros E; injection E as E; auto].
    destruct (string_dec s s') as [->|Hn]; [|right; intros E; injection E as E; auto].
    destruct kd, kd'; try (left; reflexivity); right; discriminate.
  Qed.
  Lemma in_vdec (v : node F) l : is_var v = true -> {In v l} + {~ In v l}.
  Proof.
    intros Hv. induction l as [|a l IH]; [right; intros []|]. destruct (ptr_dec v a Hv) as [->|Hn]; [left; left; reflexivity|].
    destruct IH as [IH|IH]; [left; right; exact IH|right; intros [E|E]; auto].
  Qed.
  Lemma in_pdec (v w : node F) l : is_var v = true -> is_var w = true -> {In (v, w) l} + {~ In (v, w) l}.
  Proof.
    intros Hv Hw. induction l as [|[a b] l IH]; [right; intros []|]. destruct IH as [IH|IH]; [left; right; exact IH|].
    destruct (ptr_dec v a Hv) as [->|Hn]; [destruct (ptr_dec w b Hw) as [->|Hn]|]; [left; left; reflexivity| |]; right; (intros [E|E]; [congruence|auto]).
  Qed.

  (** The components of an expression with a polynomial. *)
  Lemma comp_fun_ok {HO : HashOrd} V k S (e : node F) p sc k' : bf V k e p -> world true k S -> S e -> @std_components F NF HO e k = Ok (sc, k') ->
    fun_ok V e (sc_gphi sc) (sc_hphi sc) p.
  Proof.
    intros Hb HW Hs E. pose proof (bf_facts fsin fcos _ _ _ _ _ Hb HW Hs) as HF. split.
    - intros r vs Hst. exact (facts_value fsin fcos _ _ _ _ _ _ _ r vs HF Hst).
    - intros Hl r vs Hst v Hv.
      destruct (comp_grad fsin fcos _ _ _ _ _ _ _ _ _ _ r vs HF Hl (Nat.le_refl _) E Hst) as [Hk Hd].
      assert (Hisv : is_var v = true) by (destruct Hv as [[]|[]]; assumption).
      destruct (in_vdec v (map fst (sc_gphi sc)) Hisv) as [Hin|Hin].
      + left. apply in_map_iff in Hin as ([v' d] & Ev & Hin). cbn [fst] in Ev. subst v'. destruct (Hd v d Hin) as (z & Hz & Hdz). exists d, z. auto.
      + right. split; [exact Hin|]. destruct Hv as [Ho|Ha]; [exfalso; apply Hin, Hk, Ho|]. exact (facts_absent fsin fcos _ _ _ _ _ _ _ v HF Hl Ha _).
    - intros Hl Hl2 r vs Hst v w Hv Hw.
      destruct (comp_hess fsin fcos _ _ _ _ _ _ _ _ _ _ r vs HF Hl Hl2 (Nat.le_refl _) E Hst) as [Hd Hz].
      assert (Iv : is_var v = true) by (destruct Hv as [[]|[]]; assumption). assert (Iw : is_var w = true) by (destruct Hw as [[]|[]]; assumption).
      destruct (in_pdec v w (map fst (sc_hphi sc)) Iv Iw) as [Hin|N1].
      + left. apply in_map_iff in Hin as ([q d] & Eq & Hin). cbn [fst] in Eq. subst q. destruct (Hd v w d Hin) as (z & Hz' & D1 & D2). exists d, z. auto.
      + destruct (in_pdec w v (map fst (sc_hphi sc)) Iw Iv) as [Hin|N2].
        * left. apply in_map_iff in Hin as ([q d] & Eq & Hin). cbn [fst] in Eq. subst q. destruct (Hd w v d Hin) as (z & Hz' & D1 & D2). exists d, z. auto.
        * right. split; [exact N1|]. split; [exact N2|]. split; [exact (Hz v w Hv Hw N1 N2 _)|exact (Hz w v Hw Hv N2 N1 _)].
  Qed.

  (** Subtracting a slack. *)
  Lemma slack_fun_ok V k k1 k2 (e s f m1 : node F) p gs hs : fun_ok V e gs hs p ->
    is_var s = true -> bf V k e p -> bf V k1 f (q_sub p (q_var V (nid s))) -> (exists S, world true k2 S /\ S e) -> (exists S, world true k1 S /\ S f) ->
    (forall w, occurs w f <-> occurs w e \/ occurs w s) -> (forall w, occurs w e -> ptr_eq w s = false) -> integer (@evaluate F NF [] m1) (-1) -> is_constant m1 = true ->
    (forall v, In v (map fst gs) -> occurs v e) ->
    fun_ok V f (gs ++ [(s, m1)]) hs (q_sub p (q_var V (nid s))).
  Proof.
    intros [Hv Hg Hh] Hs Hbe Hbf (Se & We & Hse) (Sf & Wf & Hsf) Hocc Hfr Hm1 Hc1 Hkeys.
    pose proof (bf_facts fsin fcos _ _ _ _ _ Hbf Wf Hsf) as HF.
    assert (Hst : forall r vs, stand_for V r vs f -> stand_for V r vs e) by (intros r vs Hst v Ho; apply Hst, Hocc; left; exact Ho).
    assert (Hkn : forall v, known v f -> ptr_eq s v = false -> known v e).
    { intros v [Ho|[Iv Ha]] Es.
      - apply Hocc in Ho as [Ho|Ho]; [left; exact Ho|]. exfalso. destruct Ho as [_ Ho]. destruct s; try discriminate Hs. inversion Ho; subst; cbn in *; try contradiction. rewrite Nat.eqb_refl in Es. discriminate Es.
      - right. split; [exact Iv|]. intros u Hu. apply Ha, Hocc. left. exact Hu. }
    assert (Hlow : (q_size p <= q_size (q_sub p (q_var V (nid s))))%N) by (cbn; lia).
    assert (Hlowd : (q_degree p <= q_degree (q_sub p (q_var V (nid s))))%nat) by (cbn; lia).
    assert (Hsame : forall v, is_var v = true -> (nid s =? nid v)%nat = ptr_eq s v) by (intros v Iv; destruct s, v; try discriminate Hs; try discriminate Iv; reflexivity).
    assert (Isv : forall v, known v f -> is_var v = true) by (intros v [[]|[]]; assumption).
    assert (Hsx : forall v, known v f -> ptr_eq s v = true -> v = s).
    { intros v [Ho|[Iv Ha]] Es.
      - apply Hocc in Ho as [Ho|[_ Ho]].
        + exfalso. pose proof (Hfr v Ho) as E0. rewrite ptr_eq_sym, Es in E0. discriminate E0.
        + destruct s; try discriminate Hs. inversion Ho; subst; cbn in *; [reflexivity|contradiction].
      - exfalso. assert (Hos : occurs s f) by (apply Hocc; right; split; [exact Hs|apply sub_refl]). rewrite (Ha s Hos) in Es. discriminate Es. }
    split.
    - intros r vs Hf. exact (facts_value fsin fcos _ _ _ _ _ _ _ r vs HF Hf).
    - intros Hl r vs Hf v Hkv. pose proof (N.le_trans _ _ _ (dsize_mono _ _ _ _ Hlow Hlowd) Hl) as Hle.
      destruct (ptr_eq s v) eqn:Es.
      + rewrite (Hsx v Hkv Es). left. exists m1, (-1)%Z. split; [apply in_or_app; right; left; reflexivity|]. split.
        * destruct m1; try discriminate Hc1. exact Hm1.
        * pose proof (bf_facts fsin fcos _ _ _ _ _ (bf_later _ _ (Nat.max k k2) _ _ Hbe ltac:(lia)) (world_le _ _ _ _ (Nat.le_max_r k k2) We) Hse) as HFe.
          pose proof (facts_absent fsin fcos _ _ _ _ _ _ _ s HFe Hle (conj Hs Hfr) (at_int r)) as H0.
          pose proof (cd_minus_cell _ (nid s) _ _ _ H0) as H1. rewrite Nat.eqb_refl in H1. replace (IZR (-1)) with (0 - 1) by (cbn; lra). exact H1.
      + assert (Hd : forall l, cell_derivative (q_val p) (nid v) (at_int r) l -> cell_derivative (q_val (q_sub p (q_var V (nid s)))) (nid v) (at_int r) l).
        { intros l Hl0. pose proof (cd_minus_cell _ (nid s) _ _ _ Hl0) as H1. rewrite (Hsame v (Isv v Hkv)), Es, Rminus_0_r in H1. exact H1. }
        destruct (Hg Hle r vs (Hst r vs Hf) v (Hkn v Hkv Es)) as [(d & z & H1 & H2 & H3)|[H1 H2]].
        * left. exists d, z. split; [apply in_or_app; left; exact H1|]. split; [exact H2|]. apply Hd, H3.
        * right. split; [|apply Hd, H2]. rewrite map_app, in_app_iff. intros [G|[G|[]]]; [exact (H1 G)|]. cbn in G. rewrite G, ptr_eq_refl in Es. discriminate Es.
    - intros Hl Hl2 r vs Hf v w Hkv Hkw. pose proof (N.le_trans _ _ _ (dsize_mono _ _ _ _ Hlow Hlowd) Hl) as Hle. pose proof (N.le_trans _ _ _ (d2size_mono _ _ _ _ Hlow Hlowd) Hl2) as Hle2.
      assert (Hd : forall c c' l, cell_derivative2 (q_val p) c c' (at_int r) l -> cell_derivative2 (q_val (q_sub p (q_var V (nid s)))) c c' (at_int r) l).
      { intros c c' l H2. exact (cd2_minus_cell _ (nid s) _ _ _ _ H2). }
      (* the slack occurs in no second derivative of [e] *)
      assert (Hk2 : forall u, known u f -> known u e).
      { intros u Hu. destruct (ptr_eq s u) eqn:Es; [|exact (Hkn u Hu Es)]. rewrite (Hsx u Hu Es). right. split; [exact Hs|exact Hfr]. }
      destruct (Hh Hle Hle2 r vs (Hst r vs Hf) v w (Hk2 v Hkv) (Hk2 w Hkw)) as [(d & z & H1 & H2 & H3 & H4)|(H1 & H2 & H3 & H4)].
      + left. exists d, z. auto.
      + right. auto.
  Qed.

  (** The slack of the function [f] that the constraint [c] contributes. *)
  Definition slack_shape (k : nat) (c : constraint F) (sl : option (node F)) : Prop :=
    match sl with None => ckd c = Equal | Some s => ckd c <> Equal /\ is_var s = true /\ (k <= nid s)%nat end.
  Definition sub_poly (V : N) (sl : option (node F)) (a b : ipoly) : ipoly :=
    match sl with None => q_sub a b | Some s => q_sub (q_sub a b) (q_var V (nid s)) end.
  Lemma parts_poly {HO : HashOrd} V S cs ar jr k ps ar' jr' k' :
    world true k S -> Forall (fun c => S (clhs c) /\ S (crhs c)) cs -> @parts F NF HO cs ar jr k ps ar' jr' k' ->
    forall r f, nth_error (cs_f (cat ps)) r = Some f ->
      exists c sl hs, nth_error (cs_cj (cat ps)) r = Some c /\ slack_shape k c sl /\ nth_error (cs_h (cat ps)) r = Some hs /\
        (forall s, sl = Some s -> occurs s f) /\ In c cs /\ NoDup (map fst (jrow (jr + r) (cs_j (cat ps)))) /\
        forall a b, bf V k (clhs c) a -> bf V k (crhs c) b -> (q_size (sub_poly V sl a b) <= exact_limit)%N ->
          fun_ok V f (jrow (jr + r) (cs_j (cat ps))) hs (sub_poly V sl a b).
  Proof.
    intros HW HS HP; revert S HW HS.
    induction HP as [ar jr k|c cs ar jr k p ar1 jr1 k1 ps ar2 jr2 k2 E HP IH]; intros S HW HS r f Hf.
    - destruct r; discriminate Hf.
    - inversion HS as [|? ? [Sl Sr] HS']; subst.
      pose proof (constr_std_rows _ _ _ _ _ _ _ _ E) as HR1. pose proof (parts_rows _ _ _ _ _ _ _ _ HP) as HR2.
      destruct HR1 as [? ? Q0 Q1 Qc Q2 Q3]. destruct HR2 as [? ? Q0' Q1' Qc' Q2' Q3'].
      destruct (constr_std_in true k S c ar jr p ar1 jr1 k1 HW Sl Sr E) as (K1 & S1 & I1 & W1 & _).
      specialize (IH S1 W1). assert (HS1 : Forall (fun c => S1 (clhs c) /\ S1 (crhs c)) cs).
      { eapply Forall_impl; [|exact HS']. cbn; intuition. }
      specialize (IH HS1). change (cat (p :: ps)) with (cstd_app p (cat ps)) in *. cbn [cs_f cs_j cs_h cs_cj cstd_app] in *.
      rewrite jrow_app.
      destruct (Nat.lt_ge_cases r (length (cs_f p))) as [Hr|Hr].
      + rewrite nth_error_app1 in Hf by exact Hr. rewrite !nth_error_app1 by (rewrite ?Q2, ?Qc; exact Hr).
        rewrite (jrow_none _ (cs_j (cat ps)) jr1 jr2 Q3') by lia. rewrite app_nil_r. clear IH HP Q0 Q0' Q1' Qc' Q2' Q3'.
        apply constr_std_inv in E as (e & ke & sc & ks & E1 & E2 & E).
        destruct (sub_nn_grows true k S _ _ HW Sl Sr _ _ E1) as (K2 & S2 & I2 & W2 & Se).
        pose proof (std_components_grows true ke S2 e W2 Se _ _ E2) as (K3 & S3 & I3 & W3 & _).
        assert (Hgn : NoDup (map fst (sc_gphi sc))).
        { pose proof (std_components_ok _ _ _ _ E2) as (_ & _ & _ & -> & _). exact (proj1 (std_vars true ke S2 ke e W2 Se)). }
        destruct E as [x v Ha Hp0 Hv Hk|Ha Hk|s Ha Hk Hb Es|Ha Hk|s g k3 m1 Ha Hk Es E3 Em];
          cbn [cs_f cs_j cs_h cs_cj length] in *; try lia; (destruct r as [|r]; [|lia]); cbn [nth_error] in *;
          injection Hf as <-; rewrite Nat.add_0_r.
        * exists c, None, (sc_hphi sc). split; [reflexivity|]. split; [exact Hk|]. split; [reflexivity|]. split; [discriminate|]. split; [left; reflexivity|]. split; [rewrite jrow_all; exact Hgn|].
          intros a b Hba Hbb Hl. cbn [sub_poly] in *. rewrite jrow_all. destruct (bf_sub fsin fcos _ _ _ _ _ _ _ _ Hba Hbb Hl E1) as [_ Hbe].
          exact (comp_fun_ok _ _ _ _ _ _ _ Hbe W2 Se E2).
        * assert (Hs : is_var s = true) by (rewrite Es; reflexivity).
          assert (Hid : nid s = ks) by (rewrite Es; reflexivity).
          assert (Hfr : forall w, occurs w e -> ptr_eq w s = false).
          { intros w Hw. apply not_true_is_false. intros Ep. apply ptr_eq_nid in Ep.
            pose proof (w_lt _ _ _ W3 w (world_sub true ks S3 e w W3 (I3 _ Se) (proj2 Hw))). lia. }
          assert (Hocc : forall w, occurs w g <-> occurs w e \/ occurs w s).
          { intros w. eapply sub_nn_occurs; [|exact E3]. reflexivity. }
          exists c, (Some s), (sc_hphi sc). split; [reflexivity|]. split; [split; [exact Hk|split; [exact Hs|lia]]|]. split; [reflexivity|].
          split; [intros s' E'; injection E' as <-; apply Hocc; right; split; [exact Hs|apply sub_refl]|]. split; [left; reflexivity|].
          assert (Ej : jrow jr (map (fun ge : node F * node F => (jr, fst ge, snd ge)) (sc_gphi sc) ++ [(jr, s, m1)]) = sc_gphi sc ++ [(s, m1)]).
          { rewrite jrow_app, jrow_all. f_equal. unfold jrow; cbn [filter fst snd]; rewrite Nat.eqb_refl; reflexivity. }
          rewrite Ej. split.
          { rewrite map_app. cbn [map fst]. apply NoDup_app_intro; [exact Hgn|constructor; [intros []|constructor]|].
            intros w Hw [<-|[]]. apply (gphi_keys _ _ _ _ E2) in Hw. apply keys_occur in Hw. pose proof (Hfr _ Hw) as E0. rewrite ptr_eq_refl in E0. discriminate E0. }
          intros a b Hba Hbb Hl. cbn [sub_poly] in *.
          assert (Hsum : (q_size (q_sub (q_sub a b) (q_var V (nid s))) = q_size (q_sub a b) + N.max 1 V)%N) by reflexivity.
          assert (Hl1 : (q_size (q_sub a b) <= exact_limit)%N) by (revert Hl; rewrite Hsum; clear; lia).
          destruct (bf_sub fsin fcos _ _ _ _ _ _ _ _ Hba Hbb Hl1 E1) as [_ Hbe].
          assert (Hbs : bf V (Datatypes.S ks) s (q_var V (nid s))).
          { rewrite Es. apply bf_var; [rewrite Hsum in Hl; refine (N.le_trans _ _ _ _ Hl); rewrite N.add_comm; apply N.le_add_r|apply Nat.le_refl]. }
          destruct (bf_sub fsin fcos _ _ _ _ _ _ _ _ (bf_later _ _ (Datatypes.S ks) _ _ Hbe ltac:(lia)) Hbs Hl E3) as [K4 Hbg].
          destruct (mk_var_grows true ks S3 (slack_name "_s_j" jr) VarContinuous W3 _ _ eq_refl) as (_ & S4 & I4 & W4 & Ss & _). rewrite <- Es in Ss.
          destruct (sub_nn_grows true _ S4 e s W4 (I4 _ (I3 _ Se)) Ss _ _ E3) as (_ & S5 & _ & W5 & Sg).
          apply (slack_fun_ok V ke k3 ks e s g m1 (q_sub a b)).
          -- exact (comp_fun_ok _ _ _ _ _ _ _ Hbe W2 Se E2).
          -- exact Hs.
          -- exact Hbe.
          -- exact Hbg.
          -- exists S3. split; [exact W3|apply I3, Se].
          -- exists S5. split; [exact W5|exact Sg].
          -- exact Hocc.
          -- exact Hfr.
          -- rewrite Em. exact (fl_int (-1) ltac:(vm_compute; discriminate)).
          -- rewrite Em. reflexivity.
          -- intros w Hw. apply keys_occur. apply (gphi_keys _ _ _ _ E2). exact Hw.
      + rewrite nth_error_app2 in Hf by exact Hr. rewrite !nth_error_app2 by (rewrite ?Q2, ?Qc; exact Hr). rewrite Q2, Qc.
        rewrite (jrow_none _ (cs_j p) jr jr1 Q3) by lia. cbn [app].
        destruct (IH _ _ Hf) as (c' & sl & hs & H1 & H2 & H3 & H4 & H4' & H4'' & H5). exists c', sl, hs. split; [exact H1|]. split.
        { destruct sl as [s|]; [|exact H2]. destruct H2 as (A & B & C). split; [exact A|]. split; [exact B|lia]. }
        split; [exact H3|]. split; [exact H4|]. split; [right; exact H4'|]. replace (jr + r)%nat with (jr1 + (r - length (cs_f p)))%nat by lia. split; [exact H4''|]. intros a b Hba Hbb Hl.
        apply H5; [exact (bf_later _ _ _ _ _ Hba K1)|exact (bf_later _ _ _ _ _ Hbb K1)|exact Hl].
  Qed.
End PolyParts.
