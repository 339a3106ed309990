(** Integer expressions and integer linear models are exact in binary64. *)
From Verif Require Import Base Num Node NodeDiff NodeStd NodeInd Constraint Matrix MatSpec Problem ModelStd Model ExprSpec EvalProofs DiffProofs Fresh World
     ConstrSpec ModelSpec Api ApiProofs ModelApi HistAff FmtProofs FloatProofs FloatOps ExactSpec ExactSim ExactF.
From Coq Require Import Reals Lra Floats.SpecFloat NArith.
From Flocq Require Import Core.

(** *** Meanings in exact arithmetic *)
Definition envX (K : nat) (r : nat -> Z) : valsX := map (fun j => (NVar j ""%string VarContinuous, Some (IZR (r j)))) (seq 0 K).
Lemma envX_get K r i s kd : (i < K)%nat -> hget ptr_eq (NVar i s kd : nodeX) (envX K r) = Some (Some (IZR (r i))).
Proof.
  unfold envX. intros Hi. assert (G : forall a n, (a <= i < a + n)%nat -> hget ptr_eq (NVar i s kd : nodeX) (map (fun j => (NVar j ""%string VarContinuous, Some (IZR (r j)))) (seq a n)) = Some (Some (IZR (r i)))).
  { intros a n. revert a. induction n as [|n IH]; intros a Ha; [lia|]. cbn [seq map hget ptr_eq]. destruct (Nat.eqb_spec i a) as [->|]; [reflexivity|]. apply IH. lia. }
  apply G. lia.
Qed.

Lemma with1_ok {T} `{Num T} (pool : list (node T)) i f k r : with1 pool i f k = Ok r -> exists a, nth_error pool i = Some a /\ f a k = Ok r.
Proof. unfold with1. destruct (nth_error pool i); [eauto|discriminate]. Qed.
Lemma with2_ok {T} `{Num T} (pool : list (node T)) i j f k r : with2 pool i j f k = Ok r -> exists a b, nth_error pool i = Some a /\ nth_error pool j = Some b /\ f a b k = Ok r.
Proof. unfold with2. intros E. apply with1_ok in E as (a & Ea & E). apply with1_ok in E as (b & Eb & E). eauto. Qed.

Section Exact.
  Variables fsin fcos : F -> F.
  Notation NF := (NumF fsin fcos).
  Notation rl := (rlim exact_limit).
  Notation top := (N.le_refl exact_limit).

  Lemma op_means_sim (O2 : HashOrd) k pool' (fs : list meaning) o f (n' : nodeX) k' :
    op_means k fs o f ->
    (forall i g n, nth_error fs i = Some g -> nth_error pool' i = Some n -> forall r K, (k <= K)%nat -> evaluate (envX K r) n = Some (IZR (g r))) ->
    @exec X _ O2 pool' (exact_op o) k = Ok (n', k') ->
    (k <= k')%nat /\ forall r K, (k' <= K)%nat -> evaluate (envX K r) n' = Some (IZR (f r)).
  Proof.
    intros Hm Hfs E.
    destruct Hm as [s kd|v z Hz|i j f g Hf Hg|i v f z Hf Hz|i v f z Hf Hz|i j f g Hf Hg|i v f z Hf Hz|i v f z Hf Hz|i j f g Hf Hg|i v f z Hf Hz|i v f z Hf Hz|i f Hf|i f Hf];
      cbn [exact_op exec] in E;
      try (apply with2_ok in E as (a & b & Ea & Eb & E));
      try (apply with1_ok in E as (a & Ea & E));
      try (rewrite (integer_xval _ _ Hz) in E).
    - injection E as <- <-. split; [lia|]. intros r K HK. cbn [evaluate]. rewrite (envX_get K r k s kd) by lia. reflexivity.
    - injection E as <- <-. split; [lia|]. reflexivity.
    - assert (Hk : k <= k') by (eapply fresh_mono; [apply add_nn_fresh|exact E]). split; [exact Hk|]. intros r K HK.
      rewrite (add_nn_val (envX K r) _ _ _ _ _ E), (Hfs _ _ _ Hf Ea), (Hfs _ _ _ Hg Eb) by lia. cbn. rewrite plus_IZR. reflexivity.
    - assert (Hk : k <= k') by (eapply fresh_mono; [apply add_ns_fresh|exact E]). split; [exact Hk|]. intros r K HK.
      rewrite (add_ns_val (envX K r) _ _ _ _ _ E), (Hfs _ _ _ Hf Ea) by lia. cbn. rewrite plus_IZR. reflexivity.
    - assert (Hk : k <= k') by (eapply fresh_mono; [apply add_sn_fresh|exact E]). split; [exact Hk|]. intros r K HK.
      rewrite (add_sn_val (envX K r) _ _ _ _ _ E), (Hfs _ _ _ Hf Ea) by lia. cbn. rewrite plus_IZR. reflexivity.
    - assert (Hk : k <= k') by (eapply fresh_mono; [apply sub_nn_fresh|exact E]). split; [exact Hk|]. intros r K HK.
      apply (sub_nn_val (envX K r) _ _ _ _ _ E). rewrite (Hfs _ _ _ Hf Ea), (Hfs _ _ _ Hg Eb) by lia. cbn. rewrite minus_IZR. reflexivity.
    - assert (Hk : k <= k') by (eapply fresh_mono; [apply sub_ns_fresh|exact E]). split; [exact Hk|]. intros r K HK.
      apply (sub_ns_val (envX K r) _ _ _ _ _ E). rewrite (Hfs _ _ _ Hf Ea) by lia. cbn. rewrite minus_IZR. reflexivity.
    - assert (Hk : k <= k') by (eapply fresh_mono; [apply sub_sn_fresh|exact E]). split; [exact Hk|]. intros r K HK.
      apply (sub_sn_val (envX K r) _ _ _ _ _ E). rewrite (Hfs _ _ _ Hf Ea) by lia. cbn. rewrite minus_IZR. reflexivity.
    - assert (Hk : k <= k') by (eapply fresh_mono; [apply mul_nn_fresh|exact E]). split; [exact Hk|]. intros r K HK.
      apply (mul_nn_val (envX K r) _ _ _ _ _ E). rewrite (Hfs _ _ _ Hf Ea), (Hfs _ _ _ Hg Eb) by lia. cbn. rewrite mult_IZR. reflexivity.
    - assert (Hk : k <= k') by (eapply fresh_mono; [apply mul_ns_fresh|exact E]). split; [exact Hk|]. intros r K HK.
      apply (mul_ns_val (envX K r) _ _ _ _ _ E). rewrite (Hfs _ _ _ Hf Ea) by lia. cbn. rewrite mult_IZR. reflexivity.
    - assert (Hk : k <= k') by (eapply fresh_mono; [apply mul_sn_fresh|exact E]). split; [exact Hk|]. intros r K HK.
      apply (mul_sn_val (envX K r) _ _ _ _ _ E). rewrite (Hfs _ _ _ Hf Ea) by lia. cbn. rewrite mult_IZR. reflexivity.
    - assert (Hk : k <= k') by (eapply fresh_mono; [apply neg_n_fresh|exact E]). split; [exact Hk|]. intros r K HK.
      apply (neg_n_val (envX K r) _ _ _ _ E). rewrite (Hfs _ _ _ Hf Ea) by lia. cbn. rewrite opp_IZR. reflexivity.
    - injection E as <- <-. split; [lia|]. intros r K HK. apply (Hfs _ _ _ Hf Ea). exact HK.
  Qed.

  (** *** Integer programs *)
  Lemma int_reach_inv V k pool ws fs : @int_reach NF V k pool ws fs ->
    exists pool', pools exact_limit V pool pool' ws /\ length fs = length ws /\
      forall i g n, nth_error fs i = Some g -> nth_error pool' i = Some n -> forall r K, (k <= K)%nat -> evaluate (envX K r) n = Some (IZR (g r)).
  Proof.
    intros Hr. induction Hr as [|HO k pool ws fs o n k' w f Hr (pool' & HP & Hlen & Hfs) Hs Hw Hm E].
    - exists []. split; [|split; [reflexivity|]].
      + split; [reflexivity|]. split; [reflexivity|]. intros [|i] w E; discriminate.
      + intros [|i] g n E; discriminate.
    - pose proof (exec_sim fsin fcos exact_limit top V HO ord_id pool pool' ws o w HP Hs Hw k) as Hsim. rewrite E in Hsim.
      destruct (@exec X _ ord_id pool' (exact_op o) k) as [[n' k2]|p] eqn:E'; [|contradiction].
      cbn in Hsim. destruct Hsim as [Ek Hn]. subst k2.
      destruct (op_means_sim ord_id k pool' fs o f n' k' Hm Hfs E') as [Hk Hev].
      exists (pool' ++ [n']). split; [apply pools_snoc; [exact top|assumption|assumption]|]. split; [rewrite !app_length; cbn; lia|].
      destruct HP as (L1 & L2 & _).
      intros i g m Eg Em r K HK. destruct (Nat.lt_ge_cases i (length fs)) as [Hlt|Hge].
      + rewrite nth_error_app1 in Eg by exact Hlt. rewrite nth_error_app1 in Em by lia. apply (Hfs i g m Eg Em). lia.
      + rewrite nth_error_app2 in Eg by exact Hge. rewrite nth_error_app2 in Em by lia.
        destruct (i - length fs) as [|j] eqn:Ej; [|destruct j; discriminate]. replace (i - length pool') with 0 in Em by lia.
        injection Eg as <-. injection Em as <-. apply Hev, HK.
  Qed.

  Lemma ids_bounded {T} (n : node T) : exists K, forall v, sub v n -> (nid v < K)%nat.
  Proof.
    assert (L : forall l : list (node T), Forall (fun n => exists K, forall v, sub v n -> (nid v < K)%nat) l -> exists K, forall a v, In a l -> sub v a -> (nid v < K)%nat).
    { intros l Hl. induction Hl as [|a l [K1 H1] Hl [K2 H2]]; [exists 0; intros a v []|].
      exists (Nat.max K1 K2). intros b v [<-|Hb] Hs; [specialize (H1 v Hs)|specialize (H2 b v Hb Hs)]; lia. }
    assert (G : forall (n : node T) l, arguments n = l -> Forall (fun n => exists K, forall v, sub v n -> (nid v < K)%nat) l -> exists K, forall v, sub v n -> (nid v < K)%nat).
    { intros m l <- Hl. destruct (L _ Hl) as [K HK]. exists (Nat.max (Datatypes.S (nid m)) K). intros v Hv. inversion Hv; subst; [lia|].
      match goal with H1 : In _ (arguments m), H2 : sub v _ |- _ => pose proof (HK _ _ H1 H2) end. lia. }
    induction n as [i w|i st kd|i args IH|i a IHa|i a b IHa IHb|i a b IHa IHb|i a IHa] using node_ind'; (eapply G; [reflexivity|]); repeat constructor; auto.
  Qed.
  Lemma rnode_var V w n n' v : @RNode F X exact_limit (N.max 1 V) rl w n n' -> occurs v n -> (N.max 1 V <= exact_limit)%N.
  Proof.
    intros Hn [Hv Hs]. revert w n' Hn. induction Hs as [m|s c m Hin Hs IH]; intros w n' Hn.
    - destruct Hn; try discriminate. lia.
    - destruct (RNd_args exact_limit top V _ _ _ Hn) as [L G]. apply In_nth_error in Hin as [j Hj].
      destruct (nth_error (arguments n') j) as [c'|] eqn:Ej; [|apply nth_error_None in Ej; assert (j < length (arguments m)) by (apply nth_error_Some; congruence); lia].
      eapply IH; eauto.
  Qed.

  Lemma int_value V k pool ws fs r vs i w n f : @int_reach NF V k pool ws fs ->
    nth_error ws i = Some w -> nth_error pool i = Some n -> nth_error fs i = Some f -> stand_for V r vs n ->
    rl w (@evaluate F NF vs n) (Some (IZR (f r))).
  Proof.
    intros Hr Ew En Ef Hst. destruct (int_reach_inv _ _ _ _ _ Hr) as (pool' & (L1 & L2 & HP) & Hlen & Hfs).
    destruct (HP i w Ew) as (m & n' & Em & En' & Hn). assert (m = n) as -> by congruence.
    destruct (ids_bounded n) as [K HK].
    assert (Hb : bound_in (N.max 1 V) rl vs (envX (Nat.max k K) r) n).
    { intros j s kd Hs. assert (Ho : occurs (NVar j s kd) n) by (split; [reflexivity|exact Hs]).
      destruct (Hst _ Ho) as (x & Ex & Hx & Hle). exists x, (Some (IZR (r j))). split; [exact Ex|].
      pose proof (HK _ Hs) as Hj. cbn in Hj. split; [apply envX_get; lia|]. split; [eapply rnode_var; eauto|]. exists (r j). split; [cbn in Hle; lia|]. split; [reflexivity|exact Hx]. }
    assert (Ev : evaluate (envX (Nat.max k K) r) n' = Some (IZR (f r))) by (apply (Hfs i); auto; lia).
    rewrite <- Ev. eapply sim_evaluate; eauto using (rl_lim exact_limit), (rl_mono exact_limit top), (rl_lit fsin fcos exact_limit top), (rl_add fsin fcos exact_limit top), (rl_mul fsin fcos exact_limit top); lia.
  Qed.
  Lemma len3 V k pool ws fs : @int_reach NF V k pool ws fs -> length pool = length ws /\ length fs = length ws.
  Proof. intros Hr. destruct (int_reach_inv _ _ _ _ _ Hr) as (pool' & (L1 & L2 & _) & Hlen & _). auto. Qed.
  Lemma nth_some {A B} (l : list A) (l' : list B) i x : length l = length l' -> nth_error l i = Some x -> exists y, nth_error l' i = Some y.
  Proof. intros HL E. destruct (nth_error l' i) eqn:E'; [eauto|]. apply nth_error_None in E'. assert (i < length l) by (apply nth_error_Some; congruence). lia. Qed.

  (** ** C60 Integer expressions are exact

      An expression built from integers by sums, differences, products and negations, no
      intermediate result of which can exceed 2^53 when the variables stay within [V],
      evaluates to exactly the integer it denotes. *)
  Theorem C60_value V k pool ws fs i n f r vs :
    @int_reach NF V k pool ws fs -> nth_error pool i = Some n -> nth_error fs i = Some f -> stand_for V r vs n ->
    integer (@evaluate F NF vs n) (f r).
  Proof.
    intros Hr En Ef Hst. destruct (len3 _ _ _ _ _ Hr) as [L1 L2]. destruct (nth_some pool ws i n L1 En) as [w Ew].
    destruct (int_value _ _ _ _ _ r vs i w n f Hr Ew En Ef Hst) as (_ & z & _ & Ez & Hz).
    injection Ez as Ez. apply eq_IZR in Ez. rewrite Ez. exact Hz.
  Qed.
  (** ... and the violation of a comparison of two of them is exactly the integer by which
      it is violated. *)
  Lemma int_max z v : (Z.abs z <= 2 ^ 53)%Z -> integer v z -> integer (@nmax F NF (@n0 F NF) v) (Z.max 0 z).
  Proof.
    intros Hz Hv. assert (H0 : integer (@n0 F NF) 0).
    { destruct (flit_int 0) as [Hf0 Hv0]; [lia|]. apply fin_integer; [exact Hf0|exact Hv0]. }
    destruct (integer_fin _ _ Hv) as [F1 V1], (integer_fin _ _ H0) as [F2 V2].
    assert (E : @nmax F NF (@n0 F NF) v = if @nltb F NF (@n0 F NF) v then v else @n0 F NF).
    { destruct v; reflexivity. }
    assert (E2 : @nltb F NF (@n0 F NF) v = Rlt_bool 0 (IZR z)).
    { rewrite <- V1. replace 0%R with (fval (@n0 F NF)) by exact V2. exact (fltb_fin _ _ F2 F1). }
    rewrite E, E2. destruct (Z.max_spec 0 z) as [[Hlt ->]|[Hle ->]].
    - rewrite Rlt_bool_true; [exact Hv|]. apply IZR_lt. exact Hlt.
    - rewrite Rlt_bool_false; [exact H0|]. apply IZR_le. exact Hle.
  Qed.
  Theorem C60_violation V k pool ws fs c i j f g a b r vs :
    @int_reach NF V k pool ws fs ->
    nth_error pool i = Some (clhs c) -> nth_error fs i = Some f -> nth_error ws i = Some a ->
    nth_error pool j = Some (crhs c) -> nth_error fs j = Some g -> nth_error ws j = Some b -> (a + b <= exact_limit)%N ->
    stand_for V r vs (clhs c) -> stand_for V r vs (crhs c) ->
    integer (@violation F NF vs c)
      (match ckd c with Equal => Z.abs (f r - g r) | LessEqual => Z.max 0 (f r - g r) | GreaterEqual => Z.max 0 (g r - f r) end).
  Proof.
    intros Hr E1 Ef Ea E2 Eg Eb Hl S1 S2.
    pose proof (int_value _ _ _ _ _ r vs i a _ f Hr Ea E1 Ef S1) as R1. pose proof (int_value _ _ _ _ _ r vs j b _ g Hr Eb E2 Eg S2) as R2.
    assert (G : forall w z x, rl w x (Some (IZR z)) -> (Z.abs z <= 2 ^ 53)%Z /\ integer x z).
    { intros w z x (Hw & z' & Hz' & Ez & Hi). injection Ez as Ez. apply eq_IZR in Ez. subst z'. split; [eapply lim_Z; eauto|exact Hi]. }
    unfold violation. destruct (ckd c).
    - pose proof (rl_abs fsin fcos exact_limit top _ _ _ (rl_sub fsin fcos exact_limit top _ _ _ _ _ _ R1 R2 Hl)) as R3. cbn in R3. rewrite <- minus_IZR, <- abs_IZR in R3. exact (proj2 (G _ _ _ R3)).
    - pose proof (rl_sub fsin fcos exact_limit top _ _ _ _ _ _ R1 R2 Hl) as R3. cbn in R3. rewrite <- minus_IZR in R3. destruct (G _ _ _ R3) as [G1 G2]. apply int_max; [exact G1|exact G2].
    - pose proof (rl_sub fsin fcos exact_limit top _ _ _ _ _ _ R2 R1 ltac:(lia)) as R3. cbn in R3. rewrite <- minus_IZR in R3. destruct (G _ _ _ R3) as [G1 G2]. apply int_max; [exact G1|exact G2].
  Qed.
End Exact.

(** Non-vacuity: (3 x - 2 y + 7) * x, with x and y up to 1000, stays within 2^53. *)
Section Ex60.
  Local Existing Instance NumF0.
  Lemma fl_int z : (Z.abs z <= 2 ^ 53)%Z -> integer (flit z) z.
  Proof. intros Hz. destruct (flit_int z Hz). apply fin_integer; assumption. Qed.
  Ltac estep H o t1 t2 :=
    let H' := fresh in
    eassert (H' : int_reach _ _ _ _ _) by
      (eapply (@ir_step NumF0 _ ord_id _ _ _ _ o); [exact H|t1|vm_compute; discriminate|t2|vm_compute; reflexivity]);
    clear H; rename H' into H; cbn [app] in H.
  Example C60_value_example :
    exists k pool ws fs n, int_reach 1000 k pool ws fs /\ nth_error pool 6 = Some n /\
      nth_error fs 6 = Some (fun r => (3 * r 0%nat - 2 * r 1%nat + 7) * r 0%nat)%Z /\
      (let vs := [(NVar 0 "x" VarContinuous, flit 1000); (NVar 1 "y" VarInteger, flit (-999))] in
       let r := fun i => match i with 0%nat => 1000 | _ => (-999) end%Z in
       stand_for 1000 r vs n /\ evaluate vs n = flit 5005000).
  Proof.
    assert (I3 := fl_int 3 ltac:(lia)). assert (I2 := fl_int 2 ltac:(lia)). assert (I7 := fl_int 7 ltac:(lia)).
    assert (H0 : int_reach 1000 0 [] [] []) by apply ir_nil.
    estep H0 (@OVar F "x" VarContinuous) ltac:(apply sz_var) ltac:(apply mn_var).
    estep H0 (@OVar F "y" VarInteger) ltac:(apply sz_var) ltac:(apply mn_var).
    estep H0 (OMulSN (flit 3) 0) ltac:(eapply sz_mul_sn; [reflexivity|exact I3]) ltac:(eapply mn_mul_sn; [reflexivity|exact I3]).
    estep H0 (OMulSN (flit 2) 1) ltac:(eapply sz_mul_sn; [reflexivity|exact I2]) ltac:(eapply mn_mul_sn; [reflexivity|exact I2]).
    estep H0 (@OSubNN F 2 3) ltac:(eapply sz_sub_nn; reflexivity) ltac:(eapply mn_sub_nn; reflexivity).
    estep H0 (OAddNS 4 (flit 7)) ltac:(eapply sz_add_ns; [reflexivity|exact I7]) ltac:(eapply mn_add_ns; [reflexivity|exact I7]).
    estep H0 (@OMulNN F 5 0) ltac:(eapply sz_mul_nn; reflexivity) ltac:(eapply mn_mul_nn; reflexivity).
    eexists _, _, _, _, _. split; [exact H0|].
    split; [reflexivity|]. split; [reflexivity|]. cbv zeta. split; [|vm_compute; reflexivity].
    intros v [Hv Hs]. assert (G : v = NVar 0 "x" VarContinuous \/ v = NVar 1 "y" VarInteger).
    { clear -Hv Hs. repeat match goal with
        | H : In _ [] |- _ => destruct H
        | H : In _ (arguments _) |- _ => cbn [arguments] in H
        | H : In _ (_ :: _) |- _ => destruct H as [H|H]; [subst|]
        | H : sub _ _ |- _ => inversion H; subst; clear H; try discriminate Hv; auto; [idtac]
        end. }
    destruct G as [->| ->]; eexists; (split; [reflexivity|]); (split; [apply fl_int; cbn; lia|vm_compute; discriminate]).
  Qed.
  (** The limit is sharp: one more, and x + 1 at x = 2^53 is 2^53. *)
  Theorem C60_sharp : exists k pool ws fs n k' f,
    int_reach exact_limit k pool ws fs /\ op_size exact_limit ws (OAddNS 0 (flit 1)) (exact_limit + 1) /\
    op_means k fs (OAddNS 0 (flit 1)) f /\ @exec F _ ord_id pool (OAddNS 0 (flit 1)) k = Ok (n, k') /\
    let vs := [(NVar 0 "x" VarContinuous, flit (2 ^ 53))] in
    stand_for exact_limit (fun _ => 2 ^ 53)%Z vs n /\ integer (evaluate vs n) (2 ^ 53) /\ f (fun _ => 2 ^ 53)%Z = (2 ^ 53 + 1)%Z.
  Proof.
    assert (I1 := fl_int 1 ltac:(lia)). assert (H0 : int_reach exact_limit 0 [] [] []) by apply ir_nil.
    estep H0 (@OVar F "x" VarContinuous) ltac:(apply sz_var) ltac:(apply mn_var).
    eexists _, _, _, _, _, _, _. split; [exact H0|].
    split; [apply (sz_add_ns exact_limit _ 0 (flit 1) exact_limit 1); [reflexivity|exact I1]|].
    split; [eapply mn_add_ns; [reflexivity|exact I1]|]. split; [vm_compute; reflexivity|]. cbv zeta. split; [|split].
    - intros v [Hv Hs]. assert (v = NVar 0 "x" VarContinuous) as ->.
      { clear -Hv Hs. repeat match goal with
        | H : In _ [] |- _ => destruct H
        | H : In _ (arguments _) |- _ => cbn [arguments] in H
        | H : In _ (_ :: _) |- _ => destruct H as [H|H]; [subst|]
        | H : sub _ _ |- _ => inversion H; subst; clear H; try discriminate Hv; auto; [idtac]
        end. }
      exists (flit (2 ^ 53)). split; [reflexivity|]. split; [apply fl_int; lia|vm_compute; discriminate].
    - match goal with |- integer ?e _ => assert (Ee : e = flit (2 ^ 53)) by (vm_compute; reflexivity); rewrite Ee end. apply fl_int. lia.
    - reflexivity.
  Qed.
End Ex60.
