(** Integers within 2^53 behave in binary64 as they do in exact arithmetic. *)
From Verif Require Import Base Num Node NodeDiff NodeStd NodeInd Constraint Matrix MatSpec Problem ModelStd Model ExprSpec EvalProofs DiffProofs
     ConstrSpec ModelSpec Api ApiProofs ModelApi HistAff FmtProofs FloatProofs FloatOps ExactSpec ExactSim.
From Coq Require Import Reals Lra Floats.SpecFloat NArith.
From Flocq Require Import Core BinarySingleNaN.

Definition rlim (lim : N) (w : N) (f : F) (y : X) : Prop := (w <= lim)%N /\ exists z, (Z.abs_N z <= w)%N /\ y = Some (IZR z) /\ integer f z.

Lemma integer_fin v z : integer v z -> fin v /\ fval v = IZR z.
Proof. intros (V & Hf & E). split; [|exact E]. split; [exact V|]. destruct v; try discriminate; reflexivity. Qed.
Lemma fin_integer v z : fin v -> fval v = IZR z -> integer v z.
Proof. intros [V Hf] E. split; [exact V|]. split; [|exact E]. destruct v; try discriminate; reflexivity. Qed.
Lemma lim_Z (z : Z) (w : N) : (Z.abs_N z <= w)%N -> (w <= exact_limit)%N -> (Z.abs z <= 2 ^ 53)%Z.
Proof. unfold exact_limit. intros H1 H2. change (2 ^ 53)%Z with (Z.of_N (2 ^ 53)). lia. Qed.
Lemma integer_xval v z : integer v z -> xval v = Some (IZR z).
Proof. intros (_ & Hf & E). unfold xval. rewrite Hf, E. reflexivity. Qed.
Lemma integer_unique v z z' : integer v z -> integer v z' -> z = z'.
Proof. intros (_ & _ & E) (_ & _ & E'). apply eq_IZR. rewrite <- E, <- E'. reflexivity. Qed.

Section ExactF.
  Variables fsin fcos : F -> F.
  Notation NF := (NumF fsin fcos).
  (** Any limit up to 2^53. *)
  Variable lim : N.
  Hypothesis Hlim : (lim <= exact_limit)%N.
  Notation rl := (rlim lim).
  Lemma lim_Z' (z : Z) (w : N) : (Z.abs_N z <= w)%N -> (w <= lim)%N -> (Z.abs z <= 2 ^ 53)%Z.
  Proof. intros H1 H2. apply (lim_Z z w H1). lia. Qed.
  Lemma rl_lim w x y : rl w x y -> (w <= lim)%N.
  Proof. intros [Hw _]. exact Hw. Qed.
  Lemma rl_mono w w' x y : rl w x y -> (w <= w')%N -> (w' <= lim)%N -> rl w' x y.
  Proof. intros (Hw & z & Hz & E) H1 H2. split; [exact H2|]. exists z. split; [lia|exact E]. Qed.
  Lemma rl_lit z w : (Z.abs_N z <= w)%N -> (w <= lim)%N -> rl w (@nlit F NF z) (nlit z).
  Proof.
    intros Hz Hw. split; [exact Hw|]. exists z. split; [exact Hz|]. split; [reflexivity|].
    destruct (flit_int z (lim_Z' _ _ Hz Hw)) as [Hf Hv]. apply fin_integer; assumption.
  Qed.
  Lemma rl_add w w' x y x' y' : rl w x y -> rl w' x' y' -> (w + w' <= lim)%N -> rl (w + w') (@nadd F NF x x') (nadd y y').
  Proof.
    intros (Hw & z & Hz & -> & Hi) (Hw' & z' & Hz' & -> & Hi') Hl. split; [exact Hl|]. exists (z + z')%Z. split; [lia|]. split; [cbn; rewrite plus_IZR; reflexivity|].
    destruct (integer_fin _ _ Hi) as [F1 V1], (integer_fin _ _ Hi') as [F2 V2].
    assert (Hb : (Z.abs (z + z') <= 2 ^ 53)%Z) by (apply (lim_Z' _ (w + w')); lia).
    destruct (fadd_fin x x' F1 F2) as [F3 V3]; [rewrite V1, V2, <- plus_IZR; apply in_f64_int, Hb|].
    apply fin_integer; [exact F3|]. etransitivity; [exact V3|]. rewrite V1, V2, <- plus_IZR. apply RN_int, Hb.
  Qed.
  Lemma rl_sub w w' x y x' y' : rl w x y -> rl w' x' y' -> (w + w' <= lim)%N -> rl (w + w') (@nsub F NF x x') (nsub y y').
  Proof.
    intros (Hw & z & Hz & -> & Hi) (Hw' & z' & Hz' & -> & Hi') Hl. split; [exact Hl|]. exists (z - z')%Z. split; [lia|]. split; [cbn; rewrite minus_IZR; reflexivity|].
    destruct (integer_fin _ _ Hi) as [F1 V1], (integer_fin _ _ Hi') as [F2 V2].
    assert (Hb : (Z.abs (z - z') <= 2 ^ 53)%Z) by (apply (lim_Z' _ (w + w')); lia).
    destruct (fsub_fin x x' F1 F2) as [F3 V3]; [rewrite V1, V2, <- minus_IZR; apply in_f64_int, Hb|].
    apply fin_integer; [exact F3|]. etransitivity; [exact V3|]. rewrite V1, V2, <- minus_IZR. apply RN_int, Hb.
  Qed.
  Lemma rl_mul w w' x y x' y' : rl w x y -> rl w' x' y' -> (w * w' <= lim)%N -> rl (w * w') (@nmul F NF x x') (nmul y y').
  Proof.
    intros (Hw & z & Hz & -> & Hi) (Hw' & z' & Hz' & -> & Hi') Hl. split; [exact Hl|].
    assert (Hm : (Z.abs_N (z * z') <= w * w')%N) by (rewrite Zabs2N.inj_mul; apply N.mul_le_mono; assumption).
    exists (z * z')%Z. split; [exact Hm|]. split; [cbn; rewrite mult_IZR; reflexivity|].
    destruct (integer_fin _ _ Hi) as [F1 V1], (integer_fin _ _ Hi') as [F2 V2].
    assert (Hb : (Z.abs (z * z') <= 2 ^ 53)%Z) by (apply (lim_Z' _ (w * w')); assumption).
    destruct (fmul_fin x x' F1 F2) as [F3 V3]; [rewrite V1, V2, <- mult_IZR; apply in_f64_int, Hb|].
    apply fin_integer; [exact F3|]. etransitivity; [exact V3|]. rewrite V1, V2, <- mult_IZR. apply RN_int, Hb.
  Qed.
  Lemma rl_neg w x y : rl w x y -> rl w (@nneg F NF x) (nneg y).
  Proof.
    intros (Hw & z & Hz & -> & Hi). split; [exact Hw|]. exists (- z)%Z. split; [lia|]. split; [cbn; rewrite opp_IZR; reflexivity|].
    destruct (integer_fin _ _ Hi) as [F1 V1]. destruct (fopp_fin x F1) as [F2 V2]. apply fin_integer; [exact F2|]. etransitivity; [exact V2|].
    rewrite V1, opp_IZR. reflexivity.
  Qed.
  Lemma rl_abs w x y : rl w x y -> rl w (@nabs F NF x) (nabs y).
  Proof.
    intros (Hw & z & Hz & -> & Hi). split; [exact Hw|]. exists (Z.abs z)%Z. split; [lia|]. split; [cbn; rewrite abs_IZR; reflexivity|].
    destruct (integer_fin _ _ Hi) as [F1 V1]. destruct (fabs_fin x F1) as [F2 V2]. apply fin_integer; [exact F2|]. etransitivity; [exact V2|].
    rewrite V1, abs_IZR. reflexivity.
  Qed.
  Lemma rl_eqb w w' x y x' y' : rl w x y -> rl w' x' y' -> @neqb F NF x x' = neqb y y'.
  Proof.
    intros (Hw & z & Hz & -> & Hi) (Hw' & z' & Hz' & -> & Hi'). destruct (integer_fin _ _ Hi) as [F1 V1], (integer_fin _ _ Hi') as [F2 V2].
    transitivity (Req_bool (fval x) (fval x')); [exact (feqb_fin x x' F1 F2)|]. rewrite V1, V2. cbn. destruct (Req_EM_T (IZR z) (IZR z')) as [E|E]; [apply Req_bool_true, E|apply Req_bool_false, E].
  Qed.
  Lemma rl_leb w w' x y x' y' : rl w x y -> rl w' x' y' -> @nleb F NF x x' = nleb y y'.
  Proof.
    intros (Hw & z & Hz & -> & Hi) (Hw' & z' & Hz' & -> & Hi'). destruct (integer_fin _ _ Hi) as [F1 V1], (integer_fin _ _ Hi') as [F2 V2].
    transitivity (Rle_bool (fval x) (fval x')); [exact (fleb_fin x x' F1 F2)|]. rewrite V1, V2. cbn. destruct (Rle_dec (IZR z) (IZR z')) as [E|E]; [apply Rle_bool_true, E|apply Rle_bool_false]. lra.
  Qed.
  Lemma rl_ltb w w' x y x' y' : rl w x y -> rl w' x' y' -> @nltb F NF x x' = nltb y y'.
  Proof.
    intros (Hw & z & Hz & -> & Hi) (Hw' & z' & Hz' & -> & Hi'). destruct (integer_fin _ _ Hi) as [F1 V1], (integer_fin _ _ Hi') as [F2 V2].
    transitivity (Rlt_bool (fval x) (fval x')); [exact (fltb_fin x x' F1 F2)|]. rewrite V1, V2. cbn. destruct (Rlt_dec (IZR z) (IZR z')) as [E|E]; [apply Rlt_bool_true, E|apply Rlt_bool_false]. lra.
  Qed.
  Lemma rl_zero x y : rl 0 x y -> @neqb F NF x (@n0 F NF) = true.
  Proof.
    intros Hr. assert (H0 : rl 0 (@n0 F NF) n0) by (apply rl_lit; cbn; lia).
    rewrite (rl_eqb _ _ _ _ _ _ Hr H0). destruct Hr as (_ & z & Hz & -> & _). assert (z = 0%Z) as -> by lia. cbn. destruct (Req_EM_T 0 0); [reflexivity|contradiction].
  Qed.
  Lemma rl_xval w x y : rl w x y -> y = xval x.
  Proof. intros (_ & z & _ & -> & Hi). rewrite (integer_xval _ _ Hi). reflexivity. Qed.
  Lemma rl_int v z : integer v z -> (isize z <= lim)%N -> rl (isize z) v (xval v).
  Proof. intros Hi Hl. split; [exact Hl|]. exists z. split; [unfold isize; lia|]. split; [apply integer_xval, Hi|exact Hi]. Qed.

  (** *** Expression calls *)
  Definition exact_op (o : op F) : op X :=
    match o with
    | OVar s kd => OVar s kd
    | OConst v => OConst (xval v)
    | OAddNN i j => OAddNN i j | OAddNS i v => OAddNS i (xval v) | OAddSN v i => OAddSN (xval v) i
    | OMulNN i j => OMulNN i j | OMulNS i v => OMulNS i (xval v) | OMulSN v i => OMulSN (xval v) i
    | OSubNN i j => OSubNN i j | OSubNS i v => OSubNS i (xval v) | OSubSN v i => OSubSN (xval v) i
    | ODivNN i j => ODivNN i j | ODivNS i v => ODivNS i (xval v) | ODivSN v i => ODivSN (xval v) i
    | ONeg i => ONeg i | OSin i => OSin i | OCos i => OCos i | OClone i => OClone i | OArg i j => OArg i j
    | OPartial i j => OPartial i j | ODeriv i j => ODeriv i j
    end.
  Section Ops.
    Variable V : N.
    Notation vw := (N.max 1 V).
    Notation RNd := (@RNode F X lim vw rl).
    Definition pools (pool : list (node F)) (pool' : list (node X)) (ws : list N) : Prop :=
      length pool = length pool' /\ length pool = length ws /\
      forall i w, nth_error ws i = Some w -> exists n n', nth_error pool i = Some n /\ nth_error pool' i = Some n' /\ RNd w n n'.
    Lemma pools_snoc pool pool' ws n n' w : pools pool pool' ws -> RNd w n n' -> pools (pool ++ [n]) (pool' ++ [n']) (ws ++ [w]).
    Proof.
      intros (H1 & H2 & H3) Hn. split; [rewrite !app_length; cbn; lia|]. split; [rewrite !app_length; cbn; lia|]. intros i u Hi.
      destruct (Nat.lt_ge_cases i (length ws)) as [Hlt|Hge].
      - rewrite nth_error_app1 in Hi by exact Hlt. destruct (H3 i u Hi) as (a & a' & E1 & E2 & Hr). exists a, a'.
        split; [rewrite nth_error_app1 by lia; exact E1|]. split; [rewrite nth_error_app1 by lia; exact E2|exact Hr].
      - rewrite nth_error_app2 in Hi by exact Hge. destruct (i - length ws) as [|j] eqn:Ej; [|destruct j; discriminate]. injection Hi as <-.
        exists n, n'. rewrite !nth_error_app2 by lia. replace (i - length pool) with 0 by lia. replace (i - length pool') with 0 by lia. auto.
    Qed.
    Lemma RNd_args w n n' : RNd w n n' -> length (arguments n) = length (arguments n') /\
      forall j a a', nth_error (arguments n) j = Some a -> nth_error (arguments n') j = Some a' -> RNd w a a'.
    Proof.
      intros Hn. pose proof (RNode_lim _ _ _ rl_lim w n n' Hn) as Hw.
      destruct Hn as [w i v v' Hw1 Hv|w i s kd Hw1 Hl|w i l l' Hw1 Hl|w w1 w2 i a a' b b' Ha Hb Hw1 Hl]; cbn [arguments].
      - split; [reflexivity|]. intros [|j] ? ? H; discriminate.
      - split; [reflexivity|]. intros [|j] ? ? H; discriminate.
      - split; [eapply RNodes_len; eauto|]. intros j a a' H1 H2. assert (Hf : Forall2 (fun a a' => exists w', (w' <= w)%N /\ RNd w' a a') l l') by (eapply RNodes_forall; [lia|exact Hl]).
        assert (G : exists w', (w' <= w)%N /\ RNd w' a a').
        { clear -Hf H1 H2. revert j H1 H2. induction Hf as [|x y l l' Hxy Hf IH]; intros [|j] H1 H2; try discriminate; cbn in H1, H2.
          - injection H1 as <-. injection H2 as <-. exact Hxy.
          - eauto. }
        destruct G as (w' & Hle & Hr). eapply RNode_mono; [lia|exact rl_mono|exact Hr|exact Hle|exact Hw].
      - split; [reflexivity|]. assert (1 <= w1)%N by (eapply RNode_pos; [|exact Ha]; lia). assert (1 <= w2)%N by (eapply RNode_pos; [|exact Hb]; lia).
        intros [|[|[|j]]] x x' H1 H2; try discriminate; cbn in H1, H2; injection H1 as <-; injection H2 as <-; (eapply RNode_mono; [lia|exact rl_mono|eassumption|nia|exact Hw]).
    Qed.
    Lemma exec_sim (O1 O2 : HashOrd) pool pool' ws o w : pools pool pool' ws -> op_size V ws o w -> (w <= lim)%N ->
      simM2 (RNd w) (@exec F NF O1 pool o) (@exec X _ O2 pool' (exact_op o)).
    Proof.
      intros (H1 & H2 & HP) Hs Hw. pose proof rl_lim as L1. pose proof rl_mono as L2. pose proof rl_lit as L3. pose proof rl_add as L4. pose proof rl_mul as L5.
      pose proof rl_neg as L6. pose proof rl_eqb as L7. pose proof rl_zero as L8. assert (L9 : (1 <= vw)%N) by lia.
      destruct Hs; cbn [exec exact_op]; unfold with2, with1;
        repeat match goal with H : nth_error ws ?i = Some _ |- _ => let n := fresh "n" in let n' := fresh "n'" in let E1 := fresh "E" in let E2 := fresh "E" in let R := fresh "Hn" in
                 destruct (HP _ _ H) as (n & n' & E1 & E2 & R); clear H; rewrite ?E1, ?E2 end.
      - apply sim_var; lia.
      - apply sim_const; [unfold isize; lia|]. apply rl_int; assumption.
      - apply sim_add_nn; auto.
      - apply sim_add_ns; auto; [unfold isize; lia|]. apply rl_int; auto. lia.
      - apply sim_add_sn; auto; [unfold isize; lia|]. apply rl_int; auto. lia.
      - eapply sim_sub_nn; eauto.
      - eapply sim_sub_ns; eauto; [unfold isize; lia|]. apply rl_int; auto. lia.
      - eapply sim_sub_sn; eauto; [unfold isize; lia|]. apply rl_int; auto. lia.
      - eapply sim_mul_nn; eauto.
      - assert (isize z <= lim)%N by (pose proof (RNode_pos _ _ _ L9 _ _ _ Hn); unfold isize in *; nia).
        eapply sim_mul_ns; eauto; [unfold isize; lia|]. apply rl_int; auto.
      - assert (isize z <= lim)%N by (pose proof (RNode_pos _ _ _ L9 _ _ _ Hn); unfold isize in *; nia).
        eapply sim_mul_sn; eauto; [unfold isize; lia|]. apply rl_int; auto.
      - eapply sim_neg_n; eauto.
      - apply simM2_ret. assumption.
      - destruct (RNd_args _ _ _ Hn) as [G1 G2]. destruct (nth_error (arguments n) j) as [x|] eqn:E3.
        + destruct (nth_error (arguments n') j) as [x'|] eqn:E4; [apply simM2_ret; eauto|].
          apply nth_error_None in E4. assert (j < length (arguments n)) by (apply nth_error_Some; congruence). lia.
        + apply nth_error_None in E3. rewrite (proj2 (nth_error_None (arguments n') j)) by lia. apply simM2_fail.
    Qed.
  End Ops.
End ExactF.
