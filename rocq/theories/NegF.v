(** Negation in binary64 is exact. *)
From Verif Require Import Base Num Node NodeInd ExprSpec FmtProofs FloatProofs FloatOps BitSpec.
From Coq Require Import Floats.SpecFloat ZArith Reals Lra.
From Flocq Require Import Core BinarySingleNaN.
Local Open Scope list_scope.
Lemma eqz_refl x : same_number x x. Proof. left; reflexivity. Qed.
Lemma opp_round_aux sx m e l : SpecFloat.binary_round_aux 53 1024 (negb sx) m e l = SFopp (SpecFloat.binary_round_aux 53 1024 sx m e l).
Proof.
  unfold SpecFloat.binary_round_aux. destruct (SpecFloat.shr_fexp 53 1024 m e l) as [mrs' e']. 
  destruct (SpecFloat.shr_fexp 53 1024 _ e' loc_Exact) as [mrs'' e'']. destruct (shr_m mrs''); cbn [SFopp]; try reflexivity.
  destruct (Z.leb e'' _); reflexivity.
Qed.
Lemma opp_normalize m e : same_number (SpecFloat.binary_normalize 53 1024 (- m) e false) (SFopp (SpecFloat.binary_normalize 53 1024 m e false)).
Proof.
  destruct m as [|m|m]; cbn [Z.opp SpecFloat.binary_normalize].
  - right. split; eexists; reflexivity.
  - left. unfold SpecFloat.binary_round. destruct (shl_align m e _) as [mz ez]. exact (opp_round_aux false _ _ _).
  - left. unfold SpecFloat.binary_round. destruct (shl_align m e _) as [mz ez]. pose proof (opp_round_aux false (Zpos mz) ez loc_Exact) as Q. cbn [negb] in Q. rewrite Q. clear Q. destruct (SpecFloat.binary_round_aux 53 1024 false (Z.pos mz) ez loc_Exact); cbn; rewrite ?Bool.negb_involutive; reflexivity.
Qed.
Lemma add_opp x y : same_number (SFadd 53 1024 (SFopp x) (SFopp y)) (SFopp (SFadd 53 1024 x y)).
Proof.
  destruct x as [sx|sx| |sx mx ex], y as [sy|sy| |sy my ey]; try (left; destruct sx, sy; reflexivity); try (left; destruct sx; reflexivity); try (left; destruct sy; reflexivity); try (left; reflexivity).
  - destruct sx, sy; try (left; reflexivity); right; split; eexists; reflexivity.
  - cbn [SFopp SFadd]. 
    match goal with |- same_number (SpecFloat.binary_normalize _ _ ?a ?e _) (SFopp (SpecFloat.binary_normalize _ _ ?b _ _)) => replace a with (- b)%Z; [apply opp_normalize|] end.
    destruct sx, sy; cbn [cond_Zopp negb]; lia.
Qed.
Lemma add_same x x' y y' : same_number x x' -> same_number y y' -> same_number (SFadd 53 1024 x y) (SFadd 53 1024 x' y').
Proof.
  intros [-> |[[s ->] [s' ->]]] [-> |[[r ->] [r' ->]]].
  - apply eqz_refl.
  - destruct x' as [t|t| |t mt et]; cbn [SFadd]; try (left; reflexivity). right; split; destruct t, r, r'; eexists; reflexivity.
  - destruct y' as [t|t| |t mt et]; cbn [SFadd]; try (left; reflexivity). right; split; destruct t, s, s'; eexists; reflexivity.
  - right. split; destruct s, s', r, r'; eexists; reflexivity.
Qed.
Lemma same_trans x y z : same_number x y -> same_number y z -> same_number x z.
Proof.
  intros [-> |[[s ->] [s' ->]]] H; [exact H|]. destruct H as [<- |[[r Er] [r' ->]]]; right; split; eexists; reflexivity.
Qed.
Lemma mul_m1 x : valid_binary 53 1024 x = true -> SFmul 53 1024 (SFopp (flit 1)) x = SFopp x.
Proof.
  intros Hv. destruct x as [s|s| |s m e]; try (destruct s; reflexivity); try reflexivity.
  assert (Hf : fin (S754_finite s m e)) by (split; [exact Hv|reflexivity]).
  assert (H1 : fin (SFopp (flit 1)) /\ fval (SFopp (flit 1)) = (-1)%R).
  { destruct (flit_int 1 ltac:(cbn; lia)) as [A B]. destruct (fopp_fin _ A) as [C D]. split; [exact C|]. rewrite D, B. reflexivity. }
  destruct H1 as [F1 V1].
  assert (Hx : (fval (SFopp (flit 1)) * fval (S754_finite s m e))%R = fval (SFopp (S754_finite s m e))).
  { rewrite V1. destruct (fopp_fin _ Hf) as [_ ->]. lra. }
  destruct (fopp_fin _ Hf) as [[Ho _] _].
  destruct (fmul_fin (SFopp (flit 1)) (S754_finite s m e) F1 Hf) as [[G1 G2] G3].
  { rewrite Hx. apply fval_in_f64. exact Ho. }
  rewrite Hx, (RN_valid _ Ho) in G3.
  apply fval_inj; [exact G1|exact Ho|exact G2|reflexivity|exact G3|].
  assert (Hp : forall (s : bool) m e, (if s then fval (S754_finite s m e) < 0 else 0 < fval (S754_finite s m e))%R).
  { intros s' m' e'. cbn [fval]. assert (0 < IZR (Zpos m') * powerRZ 2 e')%R by (apply Rmult_lt_0_compat; [apply IZR_lt; reflexivity|apply powerRZ_lt; lra]).
    destruct s'; cbn [sgn]; lra. }
  pose proof (Hp (negb s) m e) as Hn. change (S754_finite (negb s) m e) with (SFopp (S754_finite s m e)) in Hn. rewrite <- G3 in Hn.
  destruct (SFmul 53 1024 (SFopp (flit 1)) (S754_finite s m e)) as [t|t| |t mt et]; try discriminate G2.
  - exfalso. cbn [fval] in Hn. destruct (negb s); lra.
  - cbn [sign_SF SFopp]. pose proof (Hp t mt et) as Hq. destruct t, (negb s); try reflexivity; exfalso; lra.
Qed.

Lemma opp_same x y : same_number x y -> same_number (SFopp x) (SFopp y).
Proof. intros [-> |[[s ->] [s' ->]]]; [apply eqz_refl|]. right. split; eexists; reflexivity. Qed.

Section Neg.
  Variables (fsin fcos : F -> F) (vs : vals F).
  Notation num := (NumF fsin fcos).
  Notation ev := (@evaluate F num vs).
  Lemma fold_neg l l' acc acc' :
    Forall2 (fun a b => same_number (ev a) (SFopp (ev b))) l l' -> same_number acc (SFopp acc') ->
    same_number (fold_left (fun acc x => @nadd F num acc (ev x)) l acc) (SFopp (fold_left (fun acc x => @nadd F num acc (ev x)) l' acc')).
  Proof.
    intros HF. revert acc acc'. induction HF as [|a b l l' Hab HF IH]; intros acc acc' Ha; [exact Ha|]. cbn [fold_left]. apply IH.
    change (same_number (SFadd 53 1024 acc (ev a)) (SFopp (SFadd 53 1024 acc' (ev b)))).
    eapply same_trans; [apply add_same; [exact Ha|exact Hab]|]. apply add_opp.
  Qed.
  Lemma mul_neg f k e k' : in_binary64 num vs f -> @mul_sn F num (@nm1 F num) f k = Ok (e, k') -> same_number (ev e) (SFopp (ev f)).
  Proof.
    revert k e k'.
    assert (C0 : @neqb F num (@nm1 F num) (@n0 F num) = false) by reflexivity.
    assert (C1 : @neqb F num (@nm1 F num) (@n1 F num) = false) by reflexivity.
    assert (Hend : forall n k e k', in_binary64 num vs n -> bind (mk_const (@nm1 F num)) (fun c => mk_mul c n) k = Ok (e, k') -> same_number (ev e) (SFopp (ev n))).
    { intros n k e k' Hf E. unfold bind, mk_const, mk_mul in E. injection E as <- _. left. exact (mul_m1 (ev n) (Hf n (sub_refl n))). }
    induction f as [i w|i st kd|i args IH|i a _|i a b _ _|i a b _ _|i a _] using node_ind'; intros k e k' Hf E;
      cbn [mul_sn is_constant is_constant_with_value orb] in E; rewrite C0 in E; cbn [orb] in E.
    1: { unfold mk_const in E. injection E as <- _. left. exact (mul_m1 w (Hf _ (sub_refl _))). }
    all: rewrite C1 in E.
    2: { apply bind_ok in E as (rs & k1 & E1 & E2). unfold mk_add in E2. destruct (_ <? _)%nat; [discriminate E2|]. injection E2 as <- _.
         change (same_number (fold_left (fun acc x => @nadd F num acc (ev x)) rs (flit 0)) (SFopp (fold_left (fun acc x => @nadd F num acc (ev x)) args (flit 0)))).
         apply fold_neg; [|right; split; eexists; reflexivity].
         assert (Hs : forall x, In x args -> in_binary64 num vs x) by (intros x Hx s Hs; apply Hf; eapply sub_arg; [exact Hx|exact Hs]).
         clear Hf. revert k rs k1 E1. induction args as [|x l IHl]; intros k rs k1 E1.
         - injection E1 as <- _. constructor.
         - apply mapM_cons_ok in E1 as (b & k2 & bs & E1 & E2 & ->). constructor.
           + exact (Forall_inv IH _ _ _ (Hs x (or_introl eq_refl)) E1).
           + eapply IHl; [exact (Forall_inv_tail IH)|intros y Hy; apply Hs; right; exact Hy|exact E2]. }
    all: exact (Hend _ _ _ _ Hf E).
  Qed.
  Lemma neg_neg f e : in_binary64 num vs f -> gives (@neg_n F num f) e -> same_number (ev e) (SFopp (ev f)).
  Proof.
    intros Hf (k & k' & E). destruct f; exact (mul_neg _ _ _ _ Hf E).
  Qed.
End Neg.
