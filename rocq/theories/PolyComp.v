(** The components of integer polynomials: gradients and Hessians listed by [std_components]. *)
From Verif Require Import Base Num Node NodeDiff NodeStd NodeInd ExprSpec World MapProofs StdPropProofs PathProofs DerivProofs DiffSpec DiffProofs GradProofs HessProofs CompProofs
     Api ApiProofs TextSpec FmtProofs ExactSpec ExactSim RoundSpec Properties_Exact PolySpec DegProofs PolyProofs.
From Coq Require Import Reals Lra Floats.SpecFloat NArith.
Local Open Scope R_scope.

(** The variable [v] does not occur in [n], nor does any node that passes for it. *)
Definition absent {T} (v n : node T) : Prop := is_var v = true /\ forall u, occurs u n -> ptr_eq u v = false.

Section PolyComp.
  Variables fsin fcos : F -> F.
  Notation NF := (NumF fsin fcos).
  Local Instance num_f : Num F := NF.
  Notation at_int r := (fun i => IZR (r i)).
  Notation facts := (facts fsin fcos).

  Lemma stand_sub V r vs (n d : node F) : stand_for V r vs n -> (forall u, occurs u d -> exists u', occurs u' n /\ ptr_eq u u' = true) -> stand_for V r vs d.
  Proof. intros Hs Ho u Hu. destruct (Ho u Hu) as (u' & Hu' & E). exact (stand_ptr V r vs u u' E (Hs u' Hu')). Qed.

  Lemma path_none (v d : node F) k : absent v d -> path_sum (rpaths v d) k = Ok (NConst k (@n0 F NF), Datatypes.S k).
  Proof. intros [_ H]. rewrite rpaths_absent by exact H. reflexivity. Qed.
  Lemma zero_const k : @is_constant_with_value F NF (NConst k (@n0 F NF)) (@n0 F NF) = true.
  Proof. reflexivity. Qed.
  Lemma absent_sub (v n d : node F) : absent v n -> (forall u, occurs u d -> exists u', occurs u' n /\ ptr_eq u u' = true) -> absent v d.
  Proof.
    intros [Hv Ha] Ho. split; [exact Hv|]. intros u Hu. destruct (Ho u Hu) as (u' & Hu' & E). pose proof (Ha u' Hu') as E'.
    destruct u, u'; try discriminate E; destruct v; try discriminate Hv; cbn in E, E' |- *; try reflexivity; try discriminate E'; apply Nat.eqb_eq in E; subst; exact E'.
  Qed.

  (** A variable that does not occur has derivative zero. *)
  Lemma facts_absent V k n n' w g f v : facts V k n n' w g f -> (dsize w g <= exact_limit)%N -> absent v n -> forall x, cell_derivative f (nid v) x 0.
  Proof.
    intros HF Hl Ha x. destruct (facts_deriv fsin fcos _ _ _ _ _ _ _ v k _ _ HF (proj1 Ha) (Nat.le_refl _) Hl (path_none v n k Ha)) as (d' & D & F1 & HD & _).
    rewrite <- (facts_const fsin fcos _ _ _ _ _ _ _ _ F1 (zero_const k) x). apply HD.
  Qed.

  Lemma comp_grad {HO : HashOrd} V k n n' w g f k1 sc k2 r vs :
    facts V k n n' w g f -> (dsize w g <= exact_limit)%N -> (k <= k1)%nat -> @std_components F NF HO n k1 = Ok (sc, k2) -> stand_for V r vs n ->
    (forall v, In v (map fst (sc_gphi sc)) <-> occurs v n) /\
    forall v d, In (v, d) (sc_gphi sc) -> exists z, integer (@evaluate F NF vs d) z /\ cell_derivative f (nid v) (at_int r) (IZR z).
  Proof.
    intros HF Hl Hk E Hst.
    apply std_components_ok in E as (_ & _ & _ & Hkeys & E).
    destruct (pf_world _ _ _ _ _ _ _ _ _ HF) as (S & HW & Hs). destruct (std_vars true k S k1 n HW Hs) as [_ Hocc].
    split; [intros v; rewrite Hkeys; apply Hocc|]. intros v d Hin.
    assert (Ho : occurs v n) by (refine (proj1 (Hocc v) _); apply (in_map fst) in Hin; rewrite Hkeys in Hin; exact Hin).
    destruct (p_affine (std_properties n)) eqn:Ha.
    - destruct E as [E _]. assert (G : exists c j, In (v, c) (p_a (std_properties n)) /\ d = NConst j c).
      { assert (Gen : forall (L A : list (node F * F)) (G0 : list (node F * node F)), Forall2 (fun p q => fst p = fst q /\ exists j, snd p = NConst j (snd q)) G0 L ->
          (forall x, In x L -> In x A) -> In (v, d) G0 -> exists c j, In (v, c) A /\ d = NConst j c).
        { intros L A G0 HF'. induction HF' as [|[v' d'] [u c] G' L' [E1 [j E2]] _ IH]; intros Hsub Hi; [destruct Hi|]. cbn [fst snd] in E1, E2. destruct Hi as [Hi|Hi].
          - injection Hi as <- <-. exists c, j. split; [apply Hsub; left; rewrite E1; reflexivity|exact E2].
          - apply IH; [|exact Hi]. intros x Hx. apply Hsub. right. exact Hx. }
        refine (Gen _ _ _ E _ Hin). intros x Hx. eapply Permutation_in; [apply ord_perm|exact Hx]. }
      destruct G as (c & j & Hc & ->). destruct Ho as [Hv _]. destruct v as [|m s kd| | | | |]; try discriminate Hv.
      destruct (facts_affine fsin fcos _ _ _ _ _ _ _ m s kd HF Ha) as (l & Hl' & Hc'). destruct (Hc' c Hc) as (z & Hz & ->). exists z. split; [exact Hz|]. apply Hl'.
    - destruct E as [E _]. rewrite Forall_forall in E. destruct (E _ Hin) as (q1 & q2 & Hq & P). cbn [fst snd] in P.
      destruct (facts_deriv fsin fcos _ _ _ _ _ _ _ v q1 d q2 HF (proj1 Ho) ltac:(lia) Hl P) as (d' & D & F1 & HD & Hod & _).
      destruct (facts_value fsin fcos _ _ _ _ _ _ _ r vs F1 (stand_sub _ _ _ _ _ Hst Hod)) as (z & Hz & Ez). exists z. split; [exact Hz|]. rewrite <- Ez. apply HD.
  Qed.

  Lemma comp_hess {HO : HashOrd} V k n n' w g f k1 sc k2 r vs :
    facts V k n n' w g f -> (dsize w g <= exact_limit)%N -> (d2size w g <= exact_limit)%N -> (k <= k1)%nat -> @std_components F NF HO n k1 = Ok (sc, k2) -> stand_for V r vs n ->
    (forall v1 v2 dd, In (v1, v2, dd) (sc_hphi sc) ->
       exists z, integer (@evaluate F NF vs dd) z /\ cell_derivative2 f (nid v1) (nid v2) (at_int r) (IZR z) /\ cell_derivative2 f (nid v2) (nid v1) (at_int r) (IZR z)) /\
    (forall v1 v2, occurs v1 n \/ absent v1 n -> occurs v2 n \/ absent v2 n -> ~ In (v1, v2) (map fst (sc_hphi sc)) -> ~ In (v2, v1) (map fst (sc_hphi sc)) ->
       forall x, cell_derivative2 f (nid v1) (nid v2) x 0).
  Proof.
    intros HF Hl Hl2 Hk E Hst.
    apply std_components_ok in E as (_ & _ & _ & Hkeys & E).
    destruct (pf_world _ _ _ _ _ _ _ _ _ HF) as (S & HW & Hs). destruct (std_vars true k S k1 n HW Hs) as [_ Hocc].
    destruct (p_affine (std_properties n)) eqn:Ha.
    - destruct E as [_ ->]. split; [intros ? ? ? []|]. intros v1 v2 Q1 Q2 _ _ x. assert (H1 : is_var v1 = true) by (destruct Q1 as [[]|[]]; assumption).
      destruct v1 as [|m s kd| | | | |]; try discriminate H1. destruct (facts_affine fsin fcos _ _ _ _ _ _ _ m s kd HF Ha) as (l & Hl' & _).
      exists (fun _ => l). split; [exact Hl'|]. apply derivable_pt_lim_const.
    - destruct E as (EG & dds & Hlen & HD & ->).
      assert (Hpath : forall v, occurs v n \/ absent v n -> exists q1 d q2, (k <= q1)%nat /\ path_sum (rpaths v n) q1 = Ok (d, q2)).
      { intros v [Ho|Hab].
        - assert (Hin : In v (map fst (sc_gphi sc))) by (rewrite Hkeys; apply Hocc, Ho). apply in_map_iff in Hin as ([v' d] & <- & Hin). cbn [fst].
          rewrite Forall_forall in EG. destruct (EG _ Hin) as (q1 & q2 & Hq & P). cbn [fst snd] in P. exists q1, d, q2. split; [lia|exact P].
        - exists k, (NConst k (@n0 F NF)), (Datatypes.S k). split; [lia|]. apply path_none. exact Hab. }
      assert (Hisv : forall v, occurs v n \/ absent v n -> is_var v = true) by (intros v [[]|[]]; assumption).
      assert (Hfirst : forall v, occurs v n \/ absent v n -> exists D, forall x, cell_derivative f (nid v) x (D x)).
      { intros v Ho. destruct (Hpath v Ho) as (q1 & d & q2 & Hq & P).
        destruct (facts_deriv fsin fcos _ _ _ _ _ _ _ v q1 d q2 HF (Hisv v Ho) Hq Hl P) as (d' & D & _ & H1 & _). exists D. exact H1. }
      assert (Hpair : forall v1 v2 dd q1 d q2 q3 q4, occurs v1 n \/ absent v1 n -> occurs v2 n \/ absent v2 n ->
                (k <= q1)%nat -> (q2 <= q3)%nat -> path_sum (rpaths v1 n) q1 = Ok (d, q2) -> path_sum (rpaths v2 d) q3 = Ok (dd, q4) ->
                exists dd' DD, facts V q4 dd dd' (d2size w g) (g - 1 - 1) DD /\ stand_for V r vs dd /\
                  forall x, cell_derivative2 f (nid v1) (nid v2) x (DD x) /\ cell_derivative2 f (nid v2) (nid v1) x (DD x)).
      { intros v1 v2 dd q1 d q2 q3 q4 O1 O2 Hq1 Hq2 P1 P2.
        destruct (facts_second fsin fcos _ _ _ _ _ _ _ v1 v2 q1 d q2 q3 dd q4 HF (Hisv v1 O1) (Hisv v2 O2) Hq1 Hq2 Hl Hl2 P1 P2) as (dd' & D & DD & F2 & H1 & H2 & H3 & Ho).
        exists dd', DD. split; [exact F2|]. split; [exact (stand_sub _ _ _ _ _ Hst Ho)|]. intros x. split.
        - exists D. auto.
        - destruct (Hfirst v2 O2) as (D2 & HD2). exists D2. split; [exact HD2|]. apply H3. exact HD2. }
      split.
      + intros v1 v2 dd Hin. apply nz_entry_in' in Hin as [Hin _]. pose proof (Forall2_in_combine _ _ _ _ _ HD Hin) as (d & q1 & q2 & q3 & q4 & Hq1 & Hq2 & P1 & P2). cbn [fst snd] in P1, P2.
        apply in_combine_l in Hin. apply pairs_in in Hin as [I1 I2]. apply Hocc in I1. apply Hocc in I2.
        destruct (Hpair v1 v2 dd q1 d q2 q3 q4 (or_introl I1) (or_introl I2) ltac:(lia) Hq2 P1 P2) as (dd' & DD & F2 & Hst2 & Hx).
        destruct (facts_value fsin fcos _ _ _ _ _ _ _ r vs F2 Hst2) as (z & Hz & Ez). exists z. split; [exact Hz|]. rewrite <- Ez. apply Hx.
      + assert (Hab : forall v1 v2, occurs v1 n \/ absent v1 n -> absent v2 n -> forall x, cell_derivative2 f (nid v1) (nid v2) x 0 /\ cell_derivative2 f (nid v2) (nid v1) x 0).
        { intros v1 v2 O1 A2 x. destruct (Hpath v1 O1) as (q1 & d & q2 & Hq & P1).
          destruct (facts_deriv fsin fcos _ _ _ _ _ _ _ v1 q1 d q2 HF (Hisv v1 O1) Hq Hl P1) as (_ & _ & _ & _ & Ho & _).
          destruct (Hpair v1 v2 _ q1 d q2 q2 _ O1 (or_intror A2) Hq (Nat.le_refl _) P1 (path_none v2 d q2 (absent_sub _ _ _ A2 Ho))) as (dd' & DD & F2 & _ & Hx).
          rewrite <- (facts_const fsin fcos _ _ _ _ _ _ _ _ F2 (zero_const q2) x). apply Hx. }
        intros v1 v2 O1 O2 N1 N2 x. destruct O2 as [O2|A2]; [|apply (Hab v1 v2 O1 A2)]. destruct O1 as [O1|A1]; [|apply (Hab v2 v1 (or_introl O2) A1)].
        pose proof O1 as P1. pose proof O2 as P2. apply Hocc in P1. apply Hocc in P2.
        assert (Hzero : forall u1 u2 dd, occurs u1 n -> occurs u2 n -> In ((u1, u2), dd) (combine (pairs (map fst (ord 3 k1 (p_a (std_properties n))))) dds) -> dd_of k1 n (u1, u2) dd ->
                  ~ In (u1, u2) (map fst (flat_map nz_entry (combine (pairs (map fst (ord 3 k1 (p_a (std_properties n))))) dds))) ->
                  cell_derivative2 f (nid u1) (nid u2) x 0 /\ cell_derivative2 f (nid u2) (nid u1) x 0).
        { intros u1 u2 dd U1 U2 Hc (d & q1 & q2 & q3 & q4 & Hq1 & Hq2 & R1 & R2) Hno. cbn [fst snd] in R1, R2.
          destruct (Hpair u1 u2 dd q1 d q2 q3 q4 (or_introl U1) (or_introl U2) ltac:(lia) Hq2 R1 R2) as (dd' & DD & F2 & _ & Hx).
          destruct (is_constant_with_value dd n0) eqn:Ez.
          - destruct dd as [j c| | | | | |]; try discriminate Ez. rewrite <- (facts_const fsin fcos _ _ _ _ _ _ _ _ F2 Ez x). apply Hx.
          - exfalso. apply Hno. apply in_map_iff. exists (u1, u2, dd). split; [reflexivity|]. apply nz_entry_in'. auto. }
        destruct (pairs_all _ v1 v2 P1 P2) as [Hp|Hp]; destruct (Forall2_in_ex _ _ _ _ HD Hp) as (dd & Hc & Hdd).
        * apply (Hzero v1 v2 dd O1 O2 Hc Hdd N1).
        * apply (Hzero v2 v1 dd O2 O1 Hc Hdd N2).
  Qed.
End PolyComp.
