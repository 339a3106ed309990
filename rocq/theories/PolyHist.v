(** Histories of models of integer polynomials in binary64: every expression has its polynomial. *)
From Verif Require Import Base Num Node NodeInd NodeDiff NodeStd Constraint Matrix Problem ModelStd Model
     ExprSpec World Fresh MapProofs StdPropProofs EvalProofs GradProofs OccProofs ConstrSpec ConstrProofs PartsProofs ConstrEquiv
     MatSpec ProblemProofs BuildProofs BuildMain ModelSpec StdFacts
     Api ApiProofs ModelApi StdMain HistProofs HistAff TextSpec FmtProofs ExactSpec ExactSim ExactF RoundSpec CoefHist
     PolySpec DegProofs PolyProofs PolyComp PolyModelSpec.
From Coq Require Import Reals Floats.SpecFloat NArith.
Local Open Scope R_scope.

(** *** The counterpart of an expression *)
Lemma rnode_exact_any lim vw w n n' : @RNode F X lim vw (rlim lim) w n n' -> n' = exact_node n.
Proof.
  revert w n n'.
  apply (@RNode_both_ind F X lim vw (rlim lim) (fun w n n' => n' = exact_node n) (fun w l l' => l' = map exact_node l)).
  - intros w i v v' Hw Hv. cbn. rewrite (rl_xval _ _ _ _ Hv). reflexivity.
  - reflexivity.
  - intros w i l l' Hw Hl IH. cbn. rewrite IH. reflexivity.
  - intros w w1 w2 i a a' b b' Ha IHa Hb IHb Hw Hl. cbn. rewrite IHa, IHb. reflexivity.
  - reflexivity.
  - intros w w1 w2 a a' l l' Ha IHa Hl IHl Hw Hlm. cbn. rewrite IHa, IHl. reflexivity.
Qed.
Lemma rnode_kind lim vw rel w (n : node F) (n' : node X) : @RNode F X lim vw rel w n n' -> is_constant n' = is_constant n /\ is_add n' = is_add n /\ nid n' = nid n.
Proof. destruct 1; auto. Qed.
Lemma rnodes_args lim vw rel w (l : list (node F)) (l' : list (node X)) : @RNodes F X lim vw rel w l l' -> add_args_ok l' = add_args_ok l /\ length l' = length l.
Proof.
  induction 1 as [|w w1 w2 a a' l l' Ha Hl IH Hw Hlm]; [auto|]. destruct IH as [IH1 IH2]. destruct (rnode_kind _ _ _ _ _ _ Ha) as (H1 & H2 & _).
  split; [|cbn; f_equal; exact IH2]. destruct l as [|b l], l' as [|b' l']; try discriminate IH2.
  - cbn. rewrite H2. reflexivity.
  - cbn [add_args_ok] in IH1 |- *. rewrite H1, H2. rewrite IH1. reflexivity.
Qed.
Lemma rnodes_in lim vw rel w (l : list (node F)) (l' : list (node X)) c' : @RNodes F X lim vw rel w l l' -> In c' l' -> exists c u, In c l /\ @RNode F X lim vw rel u c c'.
Proof.
  induction 1 as [|w w1 w2 a a' l l' Ha Hl IH Hw Hlm]; intros Hi; [destruct Hi|]. destruct Hi as [<-|Hi].
  - exists a, w1. split; [left; reflexivity|exact Ha].
  - destruct (IH Hi) as (c & u & H1 & H2). exists c, u. split; [right; exact H1|exact H2].
Qed.
Lemma world_image {NF : Num F} lim vw nsq k (S : node F -> Prop) : world nsq k S ->
  world nsq k (fun m' : node X => exists m w, S m /\ @RNode F X lim vw (rlim lim) w m m').
Proof.
  intros HW. constructor.
  - intros n' c' (m & w & Hs & Hr) Hc. destruct Hr as [w i v v' Hw Hv|w i s kd Hw Hl|w i l l' Hw Hl|w w1 w2 i a a' b b' Ha Hb Hw Hl]; cbn in Hc; try destruct Hc as [].
    + destruct (rnodes_in _ _ _ _ _ _ _ Hl Hc) as (c & u & Hin & Hr). exists c, u. split; [|exact Hr]. eapply (w_closed _ _ _ HW); [exact Hs|exact Hin].
    + subst c'. exists a, w1. split; [|exact Ha]. eapply (w_closed _ _ _ HW); [exact Hs|left; reflexivity].
    + destruct H as [<-|[]]. exists b, w2. split; [|exact Hb]. eapply (w_closed _ _ _ HW); [exact Hs|right; left; reflexivity].
  - intros n' (m & w & Hs & Hr). destruct (rnode_kind _ _ _ _ _ _ Hr) as (_ & _ & ->). exact (w_lt _ _ _ HW _ Hs).
  - intros n1' n2' (m1 & w1 & Hs1 & Hr1) (m2 & w2 & Hs2 & Hr2) E.
    destruct (rnode_kind _ _ _ _ _ _ Hr1) as (_ & _ & E1). destruct (rnode_kind _ _ _ _ _ _ Hr2) as (_ & _ & E2).
    assert (m1 = m2) as <- by (apply (w_coh _ _ _ HW); [exact Hs1|exact Hs2|congruence]).
    rewrite (rnode_exact_any _ _ _ _ _ Hr1), (rnode_exact_any _ _ _ _ _ Hr2). reflexivity.
  - intros n' (m & w & Hs & Hr). pose proof (w_shape _ _ _ HW _ Hs) as Hsh. destruct Hr as [w i v v' Hw Hv|w i s kd Hw Hl|w i l l' Hw Hl|w w1 w2 i a a' b b' Ha Hb Hw Hl]; cbn in Hsh |- *; auto.
    + destruct (rnodes_args _ _ _ _ _ _ Hl) as [-> ->]. exact Hsh.
    + destruct (rnode_kind _ _ _ _ _ _ Ha) as (-> & _ & _). destruct (rnode_kind _ _ _ _ _ _ Hb) as (-> & _ & _). exact Hsh.
Qed.

(** *** Calls on expressions with polynomials *)
Lemma integer_fin64 v z : integer v z -> finite64 v /\ float_value v = IZR z.
Proof.
  intros Hz. destruct (integer_fin _ _ Hz) as [[V Hf] E]. assert (finiteb v = true) by (destruct v; try discriminate Hf; reflexivity).
  split; [split; assumption|]. rewrite Properties_Text.float_value_fval. exact E.
Qed.
Section PolyOps.
  Variables fsin fcos : F -> F.
  Notation NF := (NumF fsin fcos).
  Notation rl := (rlim exact_limit).
  Notation top := (N.le_refl exact_limit).
  Local Instance num_f : Num F := NF.

  Definition est_of (p : ipoly) : est := mk_est 0 (q_val p) (fun _ => 0).
  Lemma nth_map {A B} (f : A -> B) l i a : nth_error l i = Some a -> nth_error (map f l) i = Some (f a).
  Proof. apply map_nth_error. Qed.
  Lemma poly_op_size V k ps o p : poly_op V k ps o p -> op_size V (map q_size ps) o (q_size p).
  Proof. destruct 1; cbn [q_size q_var q_num q_add q_sub q_mul q_neg]; econstructor; eauto using map_nth_error; apply map_nth_error; assumption. Qed.
  Lemma poly_op_degree V k ps o p : poly_op V k ps o p -> exists g, op_degree (map q_degree ps) o g /\ (g <= q_degree p)%nat.
  Proof. destruct 1; cbn [q_degree q_var q_num q_add q_sub q_mul q_neg]; eexists; (split; [econstructor; apply map_nth_error; eassumption|lia]). Qed.
  Lemma poly_op_est V k ps o p : poly_op V k ps o p -> exists e, op_est k (map est_of ps) o e /\ forall r, e_val e r = q_val p r.
  Proof.
    destruct 1; repeat match goal with H : nth_error _ _ = Some _ |- _ => apply (map_nth_error est_of) in H end;
      try match goal with H : integer _ _ |- _ => destruct (integer_fin64 _ _ H) as [Hf Ev] end;
      (eexists; split; [econstructor; eassumption|]); intros r; cbn; try rewrite Ev; reflexivity.
  Qed.

  (** [n] has the polynomial [p]. *)
  Definition bf (V : N) (k : nat) (n : node F) (p : ipoly) : Prop :=
    RNode exact_limit (N.max 1 V) rl (q_size p) n (exact_node n) /\ (degree n <= q_degree p)%nat /\
    forall r K, (k <= K)%nat -> evaluate (envR K r) (exact_node n) = Some (q_val p r).
  Lemma bf_later V k k1 n p : bf V k n p -> (k <= k1)%nat -> bf V k1 n p.
  Proof. intros (H1 & H2 & H3) Hk. split; [exact H1|]. split; [exact H2|]. intros r K HK. apply H3. lia. Qed.
  Lemma bf_facts V k S n p : bf V k n p -> world true k S -> S n -> facts fsin fcos V k n (exact_node n) (q_size p) (q_degree p) (q_val p).
  Proof.
    intros (H1 & H2 & H3) HW Hs. split.
    - exact H1.
    - exact H2.
    - exists S. split; assumption.
    - exists (fun m' : node X => exists m w, S m /\ RNode exact_limit (N.max 1 V) rl w m m'). split; [exact (world_image exact_limit (N.max 1 V) true k S HW)|]. exists n, (q_size p). auto.
    - exists k. exact H3.
  Qed.
  Lemma bf_lim V k n p : bf V k n p -> (q_size p <= exact_limit)%N.
  Proof. intros (H1 & _). exact (RNode_lim exact_limit (N.max 1 V) rl (rl_lim exact_limit) _ _ _ H1). Qed.
  Lemma bf_num V k i v z : integer v z -> (isize z <= exact_limit)%N -> bf V k (NConst i v) (q_num z).
  Proof.
    intros Hz Hl. split; [|split; [cbn; lia|]].
    - cbn [exact_node]. constructor; [cbn; unfold isize; lia|]. exact (rl_int exact_limit top v z Hz Hl).
    - intros r K HK. cbn. apply integer_xval. exact Hz.
  Qed.
  Lemma bf_var V k i s kd : (N.max 1 V <= exact_limit)%N -> (i < k)%nat -> bf V k (NVar i s kd) (q_var V i).
  Proof.
    intros Hl Hi. split; [|split; [cbn; lia|]].
    - cbn. constructor; [lia|exact Hl].
    - intros r K HK. cbn [exact_node evaluate]. rewrite envR_get by lia. reflexivity.
  Qed.
  Lemma bf_pools V k pool ps : Forall2 (bf V k) pool ps -> pools exact_limit V pool (map exact_node pool) (map q_size ps).
  Proof.
    intros HF. split; [rewrite map_length; reflexivity|]. split; [rewrite map_length; exact (F2_len _ _ _ HF)|]. intros i w Hi.
    revert i w Hi. induction HF as [|n p pool ps Hn HF IH]; intros [|i] w Hi; try discriminate Hi.
    - injection Hi as <-. exists n, (exact_node n). split; [reflexivity|]. split; [reflexivity|]. exact (proj1 Hn).
    - destruct (IH i w Hi) as (m & m' & H1 & H2 & H3). exists m, m'. auto.
  Qed.
  Lemma F2_at {A B} (Q : A -> B -> Prop) l l' i a b : Forall2 Q l l' -> nth_error l i = Some a -> nth_error l' i = Some b -> Q a b.
  Proof. intros H. revert i. induction H as [|x y l l' Hxy H IH]; intros [|i] E1 E2; try discriminate E1; cbn in *; [injection E1 as <-; injection E2 as <-; exact Hxy|eauto]. Qed.
  Lemma nth_map_inv {A B} (f : A -> B) l i b : nth_error (map f l) i = Some b -> exists a, nth_error l i = Some a /\ b = f a.
  Proof. revert i. induction l as [|x l IH]; intros [|i] E; try discriminate E; cbn in *; [injection E as <-; eauto|eauto]. Qed.
  Lemma bf_step {HO : HashOrd} V k pool ps o p n k' : Forall2 (bf V k) pool ps -> poly_op V k ps o p -> (q_size p <= exact_limit)%N ->
    @exec F NF HO pool o k = Ok (n, k') -> (k <= k')%nat /\ bf V k' n p.
  Proof.
    intros HF Ho Hl E. pose proof (bf_pools _ _ _ _ HF) as HP. pose proof (poly_op_size _ _ _ _ _ Ho) as Hsz.
    destruct (poly_op_degree _ _ _ _ _ Ho) as (g & Hg & Hgl). destruct (poly_op_est _ _ _ _ _ Ho) as (e & He & Hev).
    pose proof (exec_sim fsin fcos exact_limit top V HO ord_id pool _ _ o _ HP Hsz Hl k) as Hsim. rewrite E in Hsim.
    destruct (@exec X _ ord_id (map exact_node pool) (exact_op o) k) as [[n' k2]|q] eqn:E'; [|contradiction].
    unfold simR in Hsim. cbn [fst snd] in Hsim. destruct Hsim as [Ek Hn]. subst k2.
    destruct (op_est_sim ord_id V k (map exact_node pool) (map q_size ps) (map est_of ps) o e (q_size p) n' k' He Hsz) with (2 := E') as [Hk Hv].
    { intros i g0 m Hi Hm r K HK. apply nth_map_inv in Hi as (p0 & Hi & ->). apply nth_map_inv in Hm as (m0 & Hm & ->).
      destruct (F2_at _ _ _ _ _ _ HF Hm Hi) as (_ & _ & H3). exact (H3 r K HK). }
    split; [exact Hk|]. pose proof (rnode_exact_any _ _ _ _ _ Hn) as Ee. split; [|split].
    - rewrite <- Ee. exact Hn.
    - eapply Nat.le_trans; [|exact Hgl]. eapply (@exec_degree NF HO pool (map q_degree ps)); [|exact Hg|exact E]. intros i d m Hi Hm. apply nth_map_inv in Hi as (p0 & Hi & ->).
      destruct (F2_at _ _ _ _ _ _ HF Hm Hi) as (_ & H2 & _). exact H2.
    - intros r K HK. rewrite <- Ee, <- (Hev r). exact (Hv r K HK).
  Qed.
  Lemma bf_sub V k a b p q n k' : bf V k a p -> bf V k b q -> (q_size (q_sub p q) <= exact_limit)%N -> @sub_nn F NF a b k = Ok (n, k') -> (k <= k')%nat /\ bf V k' n (q_sub p q).
  Proof.
    intros Ha Hb Hl E. apply (@bf_step ord_id V k [a; b] [p; q] (OSubNN 0 1)); [constructor; [exact Ha|constructor; [exact Hb|constructor]]|econstructor; reflexivity|exact Hl|exact E].
  Qed.
  Lemma bf_neg V k a p n k' : bf V k a p -> @neg_n F NF a k = Ok (n, k') -> (k <= k')%nat /\ bf V k' n (q_neg p).
  Proof.
    intros Ha E. apply (@bf_step ord_id V k [a] [p] (ONeg 0)); [constructor; [exact Ha|constructor]|econstructor; reflexivity|exact (bf_lim _ _ _ _ Ha)|exact E].
  Qed.
End PolyOps.

Section PolyHist.
  Variables fsin fcos : F -> F.
  Variable V : N.
  Notation NF := (NumF fsin fcos).
  Local Instance num_f' : Num F := NF.

  Definition some_poly st es n := exists e, has_poly st es n e.
  Definition sides_poly st es (c : constraint F) := some_poly st es (clhs c) /\ some_poly st es (crhs c).
  Record model_poly (st : mstate F) (es : list ipoly) (m : model F) : Prop := {
    me_obj : exists e, obj_poly st es (md_objective m) e;
    me_cons : Forall (sides_poly st es) (md_constraints m);
    me_prim : Forall (fun vx => is_var (fst vx) = true) (md_primals m) }.
  Record cinv (st : mstate F) (es : list ipoly) : Prop := {
    ci_pool : Forall2 (bf V (st_k st)) (st_pool st) es;
    ci_cons : Forall (sides_poly st es) (st_cons st);
    ci_models : Forall (model_poly st es) (st_models st) }.

  (** Polynomials are kept when the pool grows. *)
  Definition growsp (st : mstate F) (es : list ipoly) (st' : mstate F) (es' : list ipoly) : Prop :=
    exists ns ds, st_pool st' = st_pool st ++ ns /\ es' = es ++ ds.
  Lemma growsp_same st es st' : st_pool st' = st_pool st -> growsp st es st' es.
  Proof. intros E. exists [], []. rewrite !app_nil_r. auto. Qed.
  Lemma has_growsp st es st' es' n e : growsp st es st' es' -> has_poly st es n e -> has_poly st' es' n e.
  Proof.
    intros (ns & ds & E1 & ->) [(i & H1 & H2)|Hc]; [left|right; exact Hc]. exists i. rewrite E1. split.
    - rewrite nth_error_app1; [exact H1|]. apply nth_error_Some. rewrite H1. discriminate.
    - rewrite nth_error_app1; [exact H2|]. apply nth_error_Some. rewrite H2. discriminate.
  Qed.
  Lemma some_growsp st es st' es' n : growsp st es st' es' -> some_poly st es n -> some_poly st' es' n.
  Proof. intros Hg (e & He). exists e. eapply has_growsp; eauto. Qed.
  Lemma sides_growsp st es st' es' c : growsp st es st' es' -> sides_poly st es c -> sides_poly st' es' c.
  Proof. intros Hg [H1 H2]. split; eapply some_growsp; eauto. Qed.
  Lemma model_growsp st es st' es' m : growsp st es st' es' -> model_poly st es m -> model_poly st' es' m.
  Proof.
    intros Hg [(e & H1) H2 H3]. constructor; [|eapply Forall_impl; [|exact H2]; intros c; eapply sides_growsp; eauto|exact H3].
    destruct (md_objective m) as [f|f|].
    - exists e. exact (has_growsp _ _ _ _ _ _ Hg H1).
    - destruct H1 as (e' & H1 & ->). exists (q_neg e'). exists e'. split; [exact (has_growsp _ _ _ _ _ _ Hg H1)|reflexivity].
    - exists e. exact H1.
  Qed.

  Theorem poly_cinv st es : @poly_hist NF V st es -> hist no_self_quotient st /\ cinv st es.
  Proof.
    induction 1 as [|HO st es c st' es' Hl [Hh [CP CC CM]] Hc E]; [split; [constructor|constructor; constructor]|].
    assert (Hany : hist any_op st) by (eapply hist_weaken; [|exact Hh]; intros; exact I).
    destruct (hist_inv false st) as (S & Hi); [exact Hany|].
    pose proof (F2_len _ _ _ CP) as Hlen.
    assert (Hpool : forall i n, nth_error (st_pool st) i = Some n -> some_poly st es n).
    { intros i n Hn. destruct (nth_error es i) as [e|] eqn:Ee.
      - exists e. left. eauto.
      - apply nth_error_None in Ee. rewrite <- Hlen in Ee. apply nth_error_None in Ee. congruence. }
    assert (HC : forall i a, nth_error (st_cons st) i = Some a -> sides_poly st es a).
    { intros i a Ha. rewrite Forall_forall in CC. eauto using nth_error_In. }
    assert (HM : forall i a, nth_error (st_models st) i = Some a -> model_poly st es a).
    { intros i a Ha. rewrite Forall_forall in CM. eauto using nth_error_In. }
    split.
    { econstructor; [exact Hh| |exact E]. destruct Hc as [o p Ho Hsz|i kd j label|i kd v z label Hv Hsz|i kd v z label Hv Hsz| |j i|j is|j s i|j|j values|j solver|j i md vx Hmd Hvx Hsz]; cbn [call_ok]; try exact I.
      destruct Ho; exact I. }
    assert (Hlater : forall k1, (st_k st <= k1)%nat -> Forall2 (bf V k1) (st_pool st) es).
    { intros k1 Hk. clear -CP Hk. induction CP as [|n p pool ps Hn CP IH]; constructor; [exact (bf_later _ _ _ _ _ Hn Hk)|exact IH]. }
    assert (Hsame : forall st1, (st_k st <= st_k st1)%nat -> st_pool st1 = st_pool st -> st_cons st1 = st_cons st -> Forall (model_poly st es) (st_models st1) -> cinv st1 es).
    { intros st1 E0 E1 E2 HF. pose proof (growsp_same st es st1 E1) as Hg. constructor.
      - rewrite E1. exact (Hlater _ E0).
      - rewrite E2. eapply Forall_impl; [|exact CC]. intros d. eapply sides_growsp; eauto.
      - eapply Forall_impl; [|exact HF]. intros d. eapply model_growsp; eauto. }
    assert (Hupd : forall j f st1, upd_model st j f = Some st1 ->
      (forall md md', model_poly st es md -> f md = Some md' -> model_poly st es md') -> cinv st1 es).
    { intros j f st1 Eu Hf. unfold upd_model in Eu. destruct (nth_error (st_models st) j) as [md|] eqn:Ej; [|discriminate].
      destruct (f md) as [md'|] eqn:Ef; [|discriminate]. injection Eu as <-.
      apply Hsame; try reflexivity; try (cbn; lia). apply set_nth_Forall; [exact CM|]. eauto. }
    assert (Hcons : forall st1 c0, (st_k st <= st_k st1)%nat -> st_pool st1 = st_pool st -> st_cons st1 = st_cons st ++ [c0] -> st_models st1 = st_models st ->
              sides_poly st es c0 -> cinv st1 es).
    { intros st1 c0 E0 E1 E2 E3 Hs. pose proof (growsp_same st es st1 E1) as Hg. constructor.
      - rewrite E1. exact (Hlater _ E0).
      - rewrite E2. apply Forall_app. split; [|constructor; [|constructor]]; [eapply Forall_impl; [|exact CC]; intros d|]; eapply sides_growsp; eauto.
      - rewrite E3. eapply Forall_impl; [|exact CM]. intros d. eapply model_growsp; eauto. }
    assert (Hnode : forall st1 n e, (st_k st <= st_k st1)%nat -> st_pool st1 = st_pool st ++ [n] -> st_cons st1 = st_cons st -> st_models st1 = st_models st ->
              bf V (st_k st1) n e -> cinv st1 (es ++ [e])).
    { intros st1 n e E0 E1 E2 E3 Hf. assert (Hg : growsp st es st1 (es ++ [e])) by (exists [n], [e]; auto). constructor.
      - rewrite E1. apply Forall2_app; [exact (Hlater _ E0)|]. constructor; [exact Hf|constructor].
      - rewrite E2. eapply Forall_impl; [|exact CC]. intros d. eapply sides_growsp; eauto.
      - rewrite E3. eapply Forall_impl; [|exact CM]. intros d. eapply model_growsp; eauto. }
    assert (Hnum : forall i v z, integer v z -> (isize z <= exact_limit)%N -> some_poly st es (NConst i v)) by (intros i v z Hv Hz; exists (q_num z); right; exists i, v, z; auto).
    destruct Hc as [o p Ho Hsz|i kd j label|i kd v z label Hv Hsz|i kd v z label Hv Hsz| |j i|j is|j s i|j|j values|j solver|j i md vx Hmd Hvx Hsz]; cbn [mexec] in E.
    - unfold new_node in E. destruct (exec (st_pool st) o (st_k st)) as [[n k']|pp] eqn:Eo; [|discriminate]. injection E as <-.
      destruct (bf_step fsin fcos V _ _ _ _ _ _ _ CP Ho Hsz Eo) as [Hk Hn]. apply (Hnode _ n); try reflexivity; [exact Hk|exact Hn].
    - unfold opt_bind in E. destruct (nth_error (st_pool st) i) as [a|] eqn:Ea; [|discriminate].
      destruct (nth_error (st_pool st) j) as [b|] eqn:Eb; [|discriminate]. cbn in E. injection E as <-.
      eapply Hcons; try reflexivity; try (cbn; lia). split; cbn; eauto.
    - unfold opt_bind in E. destruct (nth_error (st_pool st) i) as [a|] eqn:Ea; [|discriminate]. cbn in E. injection E as <-.
      eapply Hcons; try reflexivity; try (cbn; lia). split; cbn; eauto.
    - unfold opt_bind in E. destruct (nth_error (st_pool st) i) as [a|] eqn:Ea; [|discriminate]. cbn in E. injection E as <-.
      eapply Hcons; try reflexivity; try (cbn; lia). split; cbn; eauto.
    - injection E as <-. apply Hsame; try reflexivity; try (cbn; lia). apply Forall_app. split; [exact CM|]. constructor; [|constructor].
      constructor; [exists (q_num 0); reflexivity|constructor|constructor].
    - unfold opt_bind in E. destruct (nth_error (st_cons st) i) as [c|] eqn:Ec; [|discriminate].
      eapply Hupd; [exact E|]. intros md md' [M1 M2 M3] Ef. injection Ef as <-. constructor; [exact M1| |exact M3].
      cbn. apply Forall_app. split; [exact M2|]. constructor; [eauto|constructor].
    - unfold opt_bind in E. destruct (picks (st_cons st) is) as [cs|] eqn:Ec; [|discriminate].
      eapply Hupd; [exact E|]. intros md md' [M1 M2 M3] Ef. injection Ef as <-. constructor; [exact M1| |exact M3].
      cbn. apply Forall_app. split; [exact M2|]. apply Forall_forall. intros c Hc. pose proof (picks_in _ _ _ Ec c Hc) as Hin.
      rewrite Forall_forall in CC. auto.
    - unfold opt_bind in E. destruct (nth_error (st_pool st) i) as [f|] eqn:Ef; [|discriminate].
      eapply Hupd; [exact E|]. intros md md' [M1 M2 M3] Ef'. injection Ef' as <-. constructor; [|exact M2|exact M3].
      destruct (Hpool i f Ef) as (e & He). destruct s; [exists e; exact He|exists (q_neg e); exists e; auto].
    - eapply Hupd; [exact E|]. intros md md' [M1 M2 M3] Ef'. injection Ef' as <-. constructor; [|exact M2|exact M3]. exists (q_num 0). reflexivity.
    - unfold opt_bind in E. destruct (picks (st_pool st) (map fst values)) as [ns|] eqn:Ec; [|discriminate].
      eapply Hupd; [exact E|]. intros md md' [M1 M2 M3] Ef'. injection Ef' as <-. constructor; assumption.
    - unfold opt_bind in E. destruct (nth_error (st_models st) j) as [md|] eqn:Ej; [|discriminate].
      destruct (solve solver md (st_k st)) as [[md' o] k'] eqn:Es. injection E as <-.
      pose proof (hi_models _ _ _ Hi) as G. rewrite Forall_forall in G.
      destruct (G md (nth_error_In _ _ Ej)) as (M1 & _ & _).
      destruct (solve_grows false _ S solver md md' o k' (hi_world _ _ _ Hi) M1 Es) as (Hk & _).
      apply Hsame; try reflexivity; [exact Hk|]. apply set_nth_Forall; [exact CM|]. destruct (HM j md Ej) as [N1 N2 N3].
      destruct (solve_inputs solver md (st_k st) md' o k' Es) as (Q1 & Q2 & _).
      constructor; [rewrite Q1; exact N1|rewrite Q2; exact N2|].
      exact (solve_prim fsin fcos _ S solver md md' o k' (hi_world _ _ _ Hi) M1 N3 Es).
    - unfold opt_bind in E. rewrite Hmd, Hvx in E. injection E as <-. apply (Hnode _ (fst vx)); try reflexivity; try (cbn; lia).
      pose proof (me_prim _ _ _ (HM j md Hmd)) as Gp. rewrite Forall_forall in Gp. pose proof (Gp vx (nth_error_In _ _ Hvx)) as Gv.
      pose proof (hi_models _ _ _ Hi) as G. rewrite Forall_forall in G. destruct (G md (nth_error_In _ _ Hmd)) as (_ & _ & M3).
      rewrite Forall_forall in M3. pose proof (w_lt _ _ _ (hi_world _ _ _ Hi) _ (M3 vx (nth_error_In _ _ Hvx))) as Hlt.
      destruct vx as [v x]. cbn [fst] in *. destruct v as [|n s kd| | | | |]; try discriminate Gv. cbn [nid] in *. apply bf_var; [exact Hsz|exact Hlt].
  Qed.

  Lemma has_bf st es n e : @poly_hist NF V st es -> has_poly st es n e -> bf V (st_k st) n e.
  Proof.
    intros Hl He. destruct (poly_cinv st es Hl) as [_ [CP _ _]]. destruct He as [(i & H1 & H2)|(i & v & z & -> & Hv & Hz & ->)].
    - exact (F2_at _ _ _ _ _ _ CP H1 H2).
    - apply bf_num; assumption.
  Qed.
End PolyHist.
