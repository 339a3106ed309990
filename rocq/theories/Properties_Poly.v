(** Derivatives of integer polynomials are exact in binary64. *)
From Verif Require Import Base Num Node NodeDiff NodeStd NodeInd ExprSpec World MapProofs StdPropProofs PathProofs DerivProofs GradProofs CompProofs
     Api ApiProofs TextSpec FmtProofs ExactSpec ExactSim RoundSpec Properties_Exact PolySpec DegProofs PolyProofs.
From Coq Require Import Reals Lra Floats.SpecFloat NArith.
Local Open Scope R_scope.

Section Poly.
  Variables fsin fcos : F -> F.
  Notation NF := (NumF fsin fcos).
  Local Instance num_f : Num F := NF.
  Notation at_int r := (fun i => IZR (r i)).

  Lemma stand_sub V r vs (n d : node F) : stand_for V r vs n -> (forall u, occurs u d -> exists u', occurs u' n /\ ptr_eq u u' = true) -> stand_for V r vs d.
  Proof. intros Hs Ho u Hu. destruct (Ho u Hu) as (u' & Hu' & E). exact (stand_ptr V r vs u u' E (Hs u' Hu')). Qed.

  (** ** C71 Derivatives of integer polynomials are exact

      The derivative the code returns, of an expression built from integers by sums, differences,
      products and negations, evaluates in binary64, at integer points within [V], to exactly
      the partial derivative of the polynomial, if the size of the expression times its degree
      stays below 2^53. *)
  Theorem C71_derivative {HO : HashOrd} V k pool ws ds es i n w g e v k1 d k2 r vs :
    @poly_reach NF V k pool ws ds es -> nth_error pool i = Some n -> nth_error ws i = Some w -> nth_error ds i = Some g -> nth_error es i = Some e ->
    (dsize w g <= exact_limit)%N -> (k <= k1)%nat -> @derivative F NF HO n v k1 = Ok (d, k2) -> stand_for V r vs n ->
    exists z, integer (@evaluate F NF vs d) z /\ cell_derivative (e_val e) (nid v) (at_int r) (IZR z).
  Proof.
    intros Hr En Ew Eg Ee Hl Hk E Hst. destruct (poly_facts fsin fcos _ _ _ _ _ _ i n w g e Hr En Ew Eg Ee) as (n' & HF).
    assert (Hv : is_var v = true) by (apply derivative_ok in E as (Hv & _); exact Hv). rewrite derivative_eq in E by exact Hv.
    destruct (facts_deriv fsin fcos _ _ _ _ _ _ _ v k1 d k2 HF Hv Hk Hl E) as (d' & D & F1 & HD & Ho & _).
    destruct (facts_value fsin fcos _ _ _ _ _ _ _ r vs F1 (stand_sub _ _ _ _ _ Hst Ho)) as (z & Hz & Ez). exists z. split; [exact Hz|]. rewrite <- Ez. apply HD.
  Qed.
  (** The same for second derivatives, in either order. *)
  Theorem C71_second {HO : HashOrd} V k pool ws ds es i n w g e v1 v2 k1 d k2 k3 dd k4 r vs :
    @poly_reach NF V k pool ws ds es -> nth_error pool i = Some n -> nth_error ws i = Some w -> nth_error ds i = Some g -> nth_error es i = Some e ->
    (dsize w g <= exact_limit)%N -> (d2size w g <= exact_limit)%N ->
    (k <= k1)%nat -> @derivative F NF HO n v1 k1 = Ok (d, k2) -> (k2 <= k3)%nat -> @derivative F NF HO d v2 k3 = Ok (dd, k4) -> stand_for V r vs n ->
    exists z, integer (@evaluate F NF vs dd) z /\ cell_derivative2 (e_val e) (nid v1) (nid v2) (at_int r) (IZR z).
  Proof.
    intros Hr En Ew Eg Ee Hl Hl2 Hk E1 Hk' E2 Hst. destruct (poly_facts fsin fcos _ _ _ _ _ _ i n w g e Hr En Ew Eg Ee) as (n' & HF).
    assert (Hv1 : is_var v1 = true) by (apply derivative_ok in E1 as (Hv & _); exact Hv). rewrite derivative_eq in E1 by exact Hv1.
    assert (Hv2 : is_var v2 = true) by (apply derivative_ok in E2 as (Hv & _); exact Hv). rewrite derivative_eq in E2 by exact Hv2.
    destruct (facts_second fsin fcos _ _ _ _ _ _ _ v1 v2 k1 d k2 k3 dd k4 HF Hv1 Hv2 Hk Hk' Hl Hl2 E1 E2) as (dd' & D & DD & F2 & HD & HDD & _ & Ho).
    destruct (facts_value fsin fcos _ _ _ _ _ _ _ r vs F2 (stand_sub _ _ _ _ _ Hst Ho)) as (z & Hz & Ez). exists z. split; [exact Hz|]. rewrite <- Ez. exists D. split; [exact HD|apply HDD].
  Qed.
  (** The gradient that the standard components list: an entry for each variable that occurs and
      no other, and each entry is exact. *)
  Theorem C71_gradient {HO : HashOrd} V k pool ws ds es i n w g e k1 sc k2 r vs :
    @poly_reach NF V k pool ws ds es -> nth_error pool i = Some n -> nth_error ws i = Some w -> nth_error ds i = Some g -> nth_error es i = Some e ->
    (dsize w g <= exact_limit)%N -> (k <= k1)%nat -> @std_components F NF HO n k1 = Ok (sc, k2) -> stand_for V r vs n ->
    (forall v, In v (map fst (sc_gphi sc)) <-> occurs v n) /\
    forall v d, In (v, d) (sc_gphi sc) -> exists z, integer (@evaluate F NF vs d) z /\ cell_derivative (e_val e) (nid v) (at_int r) (IZR z).
  Proof.
    intros Hr En Ew Eg Ee Hl Hk E Hst. destruct (poly_facts fsin fcos _ _ _ _ _ _ i n w g e Hr En Ew Eg Ee) as (n' & HF).
    apply std_components_ok in E as (_ & _ & _ & Hkeys & E).
    destruct (pf_world _ _ _ _ _ _ _ _ _ HF) as (S & HW & Hs). destruct (std_vars true k S k1 n HW Hs) as [_ Hocc].
    split; [intros v; rewrite Hkeys; apply Hocc|]. intros v d Hin.
    assert (Ho : occurs v n) by (refine (proj1 (Hocc v) _); apply (in_map fst) in Hin; rewrite Hkeys in Hin; exact Hin).
    destruct (p_affine (std_properties n)) eqn:Ha.
    - destruct E as [E _]. assert (G : exists c j, In (v, c) (p_a (std_properties n)) /\ d = NConst j c).
      { assert (Gen : forall (L A : list (node F * F)) (G0 : list (node F * node F)), Forall2 (fun p q => fst p = fst q /\ exists j, snd p = NConst j (snd q)) G0 L ->
          (forall x, In x L -> In x A) -> In (v, d) G0 -> exists c j, In (v, c) A /\ d = NConst j c).
        { intros L A G0 HF'. induction HF' as [|[v' d'] [u c] G' L' [E1 [j E2]] _ IH]; intros Hsub Hi; [destruct Hi|]. cbn [fst snd] in E1, E2. destruct Hi as [Hi|Hi].
          - injection Hi as <- <-. exists c, j. split; [apply Hsub; left; rewrite E1; reflexivity|exact E2].
          - apply IH; [|exact Hi]. intros x Hx. apply Hsub. right. exact Hx. }
        refine (Gen _ _ _ E _ Hin). intros x Hx. eapply Permutation_in; [apply ord_perm|exact Hx]. }
      destruct G as (c & j & Hc & ->). destruct Ho as [Hv _]. destruct v as [|m s kd| | | | |]; try discriminate Hv.
      destruct (facts_affine fsin fcos _ _ _ _ _ _ _ m s kd HF Ha) as (l & Hl' & Hc'). destruct (Hc' c Hc) as (z & Hz & ->). exists z. split; [exact Hz|]. apply Hl'.
    - destruct E as [E _]. rewrite Forall_forall in E. destruct (E _ Hin) as (q1 & q2 & Hq & P). cbn [fst snd] in P.
      destruct (facts_deriv fsin fcos _ _ _ _ _ _ _ v q1 d q2 HF (proj1 Ho) ltac:(lia) Hl P) as (d' & D & F1 & HD & Hod & _).
      destruct (facts_value fsin fcos _ _ _ _ _ _ _ r vs F1 (stand_sub _ _ _ _ _ Hst Hod)) as (z & Hz & Ez). exists z. split; [exact Hz|]. rewrite <- Ez. apply HD.
  Qed.
  (** The Hessian that they list: each entry is exact, in either order of its two variables, and
      the second derivative is zero, everywhere, for every pair of variables without an entry. *)
  Theorem C71_hessian {HO : HashOrd} V k pool ws ds es i n w g e k1 sc k2 r vs :
    @poly_reach NF V k pool ws ds es -> nth_error pool i = Some n -> nth_error ws i = Some w -> nth_error ds i = Some g -> nth_error es i = Some e ->
    (dsize w g <= exact_limit)%N -> (d2size w g <= exact_limit)%N -> (k <= k1)%nat -> @std_components F NF HO n k1 = Ok (sc, k2) -> stand_for V r vs n ->
    (forall v1 v2 dd, In (v1, v2, dd) (sc_hphi sc) ->
       exists z, integer (@evaluate F NF vs dd) z /\ cell_derivative2 (e_val e) (nid v1) (nid v2) (at_int r) (IZR z) /\ cell_derivative2 (e_val e) (nid v2) (nid v1) (at_int r) (IZR z)) /\
    (forall v1 v2, occurs v1 n -> occurs v2 n -> ~ In (v1, v2) (map fst (sc_hphi sc)) -> ~ In (v2, v1) (map fst (sc_hphi sc)) ->
       forall x, cell_derivative2 (e_val e) (nid v1) (nid v2) x 0).
  Proof.
    intros Hr En Ew Eg Ee Hl Hl2 Hk E Hst. destruct (poly_facts fsin fcos _ _ _ _ _ _ i n w g e Hr En Ew Eg Ee) as (n' & HF).
    apply std_components_ok in E as (_ & _ & _ & Hkeys & E).
    destruct (pf_world _ _ _ _ _ _ _ _ _ HF) as (S & HW & Hs). destruct (std_vars true k S k1 n HW Hs) as [_ Hocc].
    destruct (p_affine (std_properties n)) eqn:Ha.
    - destruct E as [_ ->]. split; [intros ? ? ? []|]. intros v1 v2 [H1 _] [H2 _] _ _ x.
      destruct v1 as [|m s kd| | | | |]; try discriminate H1. destruct (facts_affine fsin fcos _ _ _ _ _ _ _ m s kd HF Ha) as (l & Hl' & _).
      exists (fun _ => l). split; [exact Hl'|]. apply derivable_pt_lim_const.
    - destruct E as (EG & dds & Hlen & HD & ->).
      assert (Hfirst : forall v, occurs v n -> exists D, forall x, cell_derivative (e_val e) (nid v) x (D x)).
      { intros v Ho. assert (Hin : In v (map fst (sc_gphi sc))) by (rewrite Hkeys; apply Hocc, Ho). apply in_map_iff in Hin as ([v' d] & <- & Hin). cbn [fst].
        rewrite Forall_forall in EG. destruct (EG _ Hin) as (q1 & q2 & Hq & P). cbn [fst snd] in P, Ho.
        destruct (facts_deriv fsin fcos _ _ _ _ _ _ _ v' q1 d q2 HF (proj1 Ho) ltac:(lia) Hl P) as (d' & D & _ & H1 & _). exists D. exact H1. }
      assert (Hpair : forall v1 v2 dd, occurs v1 n -> occurs v2 n -> dd_of k1 n (v1, v2) dd ->
                exists dd' DD q4, facts fsin fcos V q4 dd dd' (d2size w g) (g - 1 - 1) DD /\ stand_for V r vs dd /\
                  forall x, cell_derivative2 (e_val e) (nid v1) (nid v2) x (DD x) /\ cell_derivative2 (e_val e) (nid v2) (nid v1) x (DD x)).
      { intros v1 v2 dd O1 O2 (d & q1 & q2 & q3 & q4 & Hq1 & Hq2 & P1 & P2). cbn [fst snd] in P1, P2.
        destruct (facts_second fsin fcos _ _ _ _ _ _ _ v1 v2 q1 d q2 q3 dd q4 HF (proj1 O1) (proj1 O2) ltac:(lia) Hq2 Hl Hl2 P1 P2) as (dd' & D & DD & F2 & H1 & H2 & H3 & Ho).
        exists dd', DD, q4. split; [exact F2|]. split; [exact (stand_sub _ _ _ _ _ Hst Ho)|]. intros x. split.
        - exists D. auto.
        - destruct (Hfirst v2 O2) as (D2 & HD2). exists D2. split; [exact HD2|]. apply H3. exact HD2. }
      split.
      + intros v1 v2 dd Hin. apply nz_entry_in' in Hin as [Hin _]. pose proof (Forall2_in_combine _ _ _ _ _ HD Hin) as Hdd.
        apply in_combine_l in Hin. apply pairs_in in Hin as [I1 I2]. apply Hocc in I1. apply Hocc in I2.
        destruct (Hpair v1 v2 dd I1 I2 Hdd) as (dd' & DD & q4 & F2 & Hst2 & Hx).
        destruct (facts_value fsin fcos _ _ _ _ _ _ _ r vs F2 Hst2) as (z & Hz & Ez). exists z. split; [exact Hz|]. rewrite <- Ez. apply Hx.
      + intros v1 v2 O1 O2 N1 N2 x. pose proof O1 as P1. pose proof O2 as P2. apply Hocc in P1. apply Hocc in P2.
        assert (Hzero : forall u1 u2 dd, occurs u1 n -> occurs u2 n -> In ((u1, u2), dd) (combine (pairs (map fst (ord 3 k1 (p_a (std_properties n))))) dds) -> dd_of k1 n (u1, u2) dd ->
                  ~ In (u1, u2) (map fst (flat_map nz_entry (combine (pairs (map fst (ord 3 k1 (p_a (std_properties n))))) dds))) ->
                  cell_derivative2 (e_val e) (nid u1) (nid u2) x 0 /\ cell_derivative2 (e_val e) (nid u2) (nid u1) x 0).
        { intros u1 u2 dd U1 U2 Hc Hdd Hno. destruct (Hpair u1 u2 dd U1 U2 Hdd) as (dd' & DD & q4 & F2 & _ & Hx).
          destruct (is_constant_with_value dd n0) eqn:Ez.
          - destruct dd as [j c| | | | | |]; try discriminate Ez. rewrite <- (facts_const fsin fcos _ _ _ _ _ _ _ _ F2 Ez x). apply Hx.
          - exfalso. apply Hno. apply in_map_iff. exists (u1, u2, dd). split; [reflexivity|]. apply nz_entry_in'. auto. }
        destruct (pairs_all _ v1 v2 P1 P2) as [Hp|Hp]; destruct (Forall2_in_ex _ _ _ _ HD Hp) as (dd & Hc & Hdd).
        * apply (Hzero v1 v2 dd O1 O2 Hc Hdd N1).
        * apply (Hzero v2 v1 dd O2 O1 Hc Hdd N2).
  Qed.
End Poly.

(** Non-vacuity: (3 x - 2 y + 7) * x, with x and y up to 1000: at (1000, -999) the derivative with
    respect to x evaluates to 8005, and the second derivatives that are listed to 6 and -2. *)
Section Ex71.
  Local Existing Instance NumF0.
  Ltac pstep H o t1 t2 t3 :=
    let H' := fresh in
    eassert (H' : poly_reach _ _ _ _ _ _) by
      (eapply (@pr_step NumF0 _ ord_id _ _ _ _ _ o); [exact H|t1|vm_compute; discriminate|t2|t3|vm_compute; reflexivity]);
    clear H; rename H' into H; cbn [app] in H.
  Example C71_example :
    exists k pool ws ds es n w g e, poly_reach 1000 k pool ws ds es /\ nth_error pool 6 = Some n /\ nth_error ws 6 = Some w /\ nth_error ds 6 = Some g /\ nth_error es 6 = Some e /\
      (dsize w g <= exact_limit)%N /\ (d2size w g <= exact_limit)%N /\
      (forall r, e_val e r = (float_value (flit 3) * r 0%nat - float_value (flit 2) * r 1%nat + float_value (flit 7)) * r 0%nat) /\
      (let vs := [(NVar 0 "x"%string VarContinuous, flit 1000); (NVar 1 "y"%string VarInteger, flit (-999))] in
       let r := fun i => match i with 0%nat => 1000 | _ => (-999) end%Z in
       stand_for 1000 r vs n /\
       (exists d k2, @derivative F NumF0 ord_id n (NVar 0 "x"%string VarContinuous) k = Ok (d, k2) /\ evaluate vs d = flit 8005) /\
       (exists sc k2, @std_components F NumF0 ord_id n k = Ok (sc, k2) /\ p_affine (std_properties n) = false /\
          map (fun p => (nid (fst p), evaluate vs (snd p))) (sc_gphi sc) = [(0%nat, flit 8005); (1%nat, flit (-2000))] /\
          map (fun p => (nid (fst (fst p)), nid (snd (fst p)), evaluate vs (snd p))) (sc_hphi sc) = [(0%nat, 0%nat, flit 6); (0%nat, 1%nat, flit (-2))])).
  Proof.
    assert (I3 := fl_int 3 ltac:(lia)). assert (I2 := fl_int 2 ltac:(lia)). assert (I7 := fl_int 7 ltac:(lia)).
    assert (G3 : finite64 (flit 3)) by (split; vm_compute; reflexivity). assert (G2 : finite64 (flit 2)) by (split; vm_compute; reflexivity). assert (G7 : finite64 (flit 7)) by (split; vm_compute; reflexivity).
    assert (H0 : poly_reach 1000 0 [] [] [] []) by apply pr_nil.
    pstep H0 (@OVar F "x"%string VarContinuous) ltac:(apply sz_var) ltac:(apply dg_var) ltac:(apply oe_var).
    pstep H0 (@OVar F "y"%string VarInteger) ltac:(apply sz_var) ltac:(apply dg_var) ltac:(apply oe_var).
    pstep H0 (OMulSN (flit 3) 0) ltac:(eapply sz_mul_sn; [reflexivity|exact I3]) ltac:(eapply dg_mul_sn; reflexivity) ltac:(eapply oe_mul_sn; [reflexivity|exact G3]).
    pstep H0 (OMulSN (flit 2) 1) ltac:(eapply sz_mul_sn; [reflexivity|exact I2]) ltac:(eapply dg_mul_sn; reflexivity) ltac:(eapply oe_mul_sn; [reflexivity|exact G2]).
    pstep H0 (@OSubNN F 2 3) ltac:(eapply sz_sub_nn; reflexivity) ltac:(eapply dg_sub_nn; reflexivity) ltac:(eapply oe_sub_nn; reflexivity).
    pstep H0 (OAddNS 4 (flit 7)) ltac:(eapply sz_add_ns; [reflexivity|exact I7]) ltac:(eapply dg_add_ns; reflexivity) ltac:(eapply oe_add_ns; [reflexivity|exact G7]).
    pstep H0 (@OMulNN F 5 0) ltac:(eapply sz_mul_nn; reflexivity) ltac:(eapply dg_mul_nn; reflexivity) ltac:(eapply oe_mul_nn; reflexivity).
    eexists _, _, _, _, _, _, _, _, _. split; [exact H0|]. do 4 (split; [reflexivity|]).
    split; [vm_compute; discriminate|]. split; [vm_compute; discriminate|]. split; [reflexivity|]. cbv zeta. split; [|split].
    - intros v [Hv Hs]. assert (G : v = NVar 0 "x"%string VarContinuous \/ v = NVar 1 "y"%string VarInteger).
      { clear -Hv Hs. repeat match goal with
          | H : In _ [] |- _ => destruct H
          | H : In _ (arguments _) |- _ => cbn [arguments] in H
          | H : In _ (_ :: _) |- _ => destruct H as [H|H]; [subst|]
          | H : sub _ _ |- _ => inversion H; subst; clear H; try discriminate Hv; auto; [idtac]
          end. }
      destruct G as [->| ->]; eexists; (split; [reflexivity|]); (split; [apply fl_int; cbn; lia|vm_compute; discriminate]).
    - eexists _, _. split; vm_compute; reflexivity.
    - eexists _, _. split; [vm_compute; reflexivity|]. split; [vm_compute; reflexivity|]. split; vm_compute; reflexivity.
  Qed.
End Ex71.
