(** [std_problem] for a model whose expressions are known: when it succeeds and
    what the result is, in closed form. *)
From Verif Require Import Base Num Node NodeInd NodeDiff NodeStd Constraint Matrix Problem ModelStd Model
     ExprSpec World MapProofs StdPropProofs GradProofs OccProofs ConstrProofs PartsProofs
     MatSpec MatrixProofs ProblemProofs BuildProofs BuildMain.

Section StdMain.
  Context {T : Type} `{Num T} `{HashOrd}.

  (** The expression to be minimised (model_std.rs:70-74). *)
  Definition obj_exp (o : objective T) : M (node T) :=
    match o with Maximize f => neg_n f | Minimize f => ret f | EmptyObj => mk_const n0 end.

  Lemma obj_std_ok o k r k' :
    obj_std o k = Ok (r, k') <->
    exists e k1, obj_exp o k = Ok (e, k1) /\ std_components e k1 = Ok (r, k').
  Proof.
    destruct o; cbn [obj_std obj_exp]; rewrite ?bind_ok; try reflexivity.
    split.
    - intros E. exists f, k. auto.
    - intros (e & k1 & E1 & E2). inversion E1; subst. auto.
  Qed.
  Lemma obj_std_panic o k p :
    obj_std o k = Panic p <->
    obj_exp o k = Panic p \/ exists e k1, obj_exp o k = Ok (e, k1) /\ std_components e k1 = Panic p.
  Proof.
    destruct o; cbn [obj_std obj_exp]; rewrite ?bind_panic; try reflexivity.
    split.
    - intros E. right. exists f, k. auto.
    - intros [E|(e & k1 & E1 & E2)]; [discriminate|]. inversion E1; subst. auto.
  Qed.

  (** The expressions of a model belong to the world [S]. *)
  Record model_in (S : node T -> Prop) (m : model T) : Prop := {
    mi_obj : match md_objective m with Minimize f | Maximize f => S f | EmptyObj => True end;
    mi_cons : Forall (fun c => S (clhs c) /\ S (crhs c)) (md_constraints m);
    mi_init : nodupk ptr_eq (map fst (md_init m));
    mi_init_in : Forall (fun vx => S (fst vx)) (md_init m)
  }.

  Lemma obj_exp_grows nsq k S o :
    world nsq k S -> match o with Minimize f | Maximize f => S f | EmptyObj => True end ->
    grows nsq k S (obj_exp o) here.
  Proof.
    intros HW Ho. destruct o; cbn [obj_exp].
    - apply grows_ret; auto.
    - apply neg_n_grows; auto.
    - eapply grows_weaken; [apply mk_const_grows; auto|]. intros r S' _ [Hr _]; exact Hr.
  Qed.

  (** All that is known of the intermediate results. *)
  Record std_run (nsq : bool) (k : nat) (S : node T -> Prop) (m : model T) (k' : nat)
         (S' : node T -> Prop) (eo : node T) (ke : nat) (obj : std_comp T) (ko : nat)
         (ps : list (cstd T)) (ar jr : nat) : Prop := {
    sr_obj : obj_exp (md_objective m) k = Ok (eo, ke);
    sr_comp : std_components eo ke = Ok (obj, ko);
    sr_parts : parts (md_constraints m) 0 0 ko ps ar jr k';
    sr_le : k <= ke /\ ke <= ko /\ ko <= k';
    sr_incl : incl S S';
    sr_world : world nsq k' S';
    sr_eo : S' eo;
    sr_objcomp : comps_here obj S';
    sr_in : part_in S' (cat ps);
    sr_rows : part_rows 0 0 (cat ps) ar jr;
    sr_w1 : exists S1, incl S S1 /\ incl S1 S' /\ world nsq ke S1 /\ S1 eo;
    sr_w2 : exists S2, incl S S2 /\ incl S2 S' /\ world nsq ko S2 /\ S2 eo
  }.

  Lemma model_std_run nsq k S m obj cs k' :
    world nsq k S -> model_in S m -> model_std m k = Ok ((obj, cs), k') ->
    exists S' eo ke ko ps ar jr, std_run nsq k S m k' S' eo ke obj ko ps ar jr /\ cs = cat ps.
  Proof.
    intros HW [Ho Hc _ _] E. unfold model_std in E.
    apply bind_ok in E as (ob & ko & E1 & E). apply bind_ok in E as ([[x ar] jr] & k2 & E2 & E).
    inversion E; subst ob cs k2; clear E. cbn [fst].
    apply obj_std_ok in E1 as (eo & ke & E0 & E1).
    apply constrs_std_parts in E2 as (ps & ar' & jr' & HP & Ex). inversion Ex; subst x ar' jr'; clear Ex.
    destruct (obj_exp_grows nsq k S _ HW Ho _ _ E0) as (K0 & S0 & I0 & W0 & Se).
    destruct (std_components_grows nsq ke S0 eo W0 Se _ _ E1) as (K1 & S1 & I1 & W1 & Hcomp).
    assert (Hc1 : Forall (fun c => S1 (clhs c) /\ S1 (crhs c)) (md_constraints m)).
    { eapply Forall_impl; [|exact Hc]. intros c []; auto. }
    destruct (parts_in nsq S1 _ 0 0 ko ps ar jr k' W1 Hc1 HP) as (K2 & S2 & I2 & W2 & P2).
    exists S2, eo, ke, ko, ps, ar, jr. split; auto. constructor; auto.
    - intros n Sn; auto.
    - destruct Hcomp as (A & B & C). split; [auto|]. split; (eapply Forall_impl; [|eassumption]); cbn; intuition.
    - apply parts_rows with (1 := HP).
    - exists S0. split; [exact I0|]. split; [intros n Sn; auto|]. split; [exact W0|exact Se].
    - exists S1. split; [intros n Sn; auto|]. split; [exact I2|]. split; [exact W1|]. apply I1; exact Se.
  Qed.

  Theorem std_problem_ok nsq k S m obj cs k' :
    world nsq k S -> model_in S m -> model_std m k = Ok ((obj, cs), k') ->
    exists uc lc,
      std_problem m k =
        Ok (mk_std_prob (p_problem k' (md_init m) obj cs) (v2i_of (problem_vars k' obj cs))
                        (enum (cs_ca cs)) (enum (cs_cj cs)) uc lc, k') /\
      (forall i v, nth_error (problem_vars k' obj cs) i = Some v ->
         hget Nat.eqb i uc = snd (bfold (fun val cur => nleb val cur) v (cs_u cs) (INF, None))) /\
      nodupk Nat.eqb (map fst uc) /\ Forall (fun ic => fst ic < length (problem_vars k' obj cs)) uc /\
      (forall i v, nth_error (problem_vars k' obj cs) i = Some v ->
         hget Nat.eqb i lc = snd (bfold (fun val cur => nleb cur val) v (cs_l cs) (nneg INF, None))) /\
      nodupk Nat.eqb (map fst lc) /\ Forall (fun ic => fst ic < length (problem_vars k' obj cs)) lc.
  Proof.
    intros HW Hm E.
    destruct (model_std_run nsq k S m obj cs k' HW Hm E) as (S' & eo & ke & ko & ps & ar & jr & R & ->).
    pose proof (sr_world _ _ _ _ _ _ _ _ _ _ _ _ _ R) as W'.
    pose proof (sr_eo _ _ _ _ _ _ _ _ _ _ _ _ _ R) as Seo.
    pose proof (sr_comp _ _ _ _ _ _ _ _ _ _ _ _ _ R) as Ecomp.
    destruct (sr_in _ _ _ _ _ _ _ _ _ _ _ _ _ R) as [P1 P2 P3 P4 P5 P6 P7].
    destruct (sr_rows _ _ _ _ _ _ _ _ _ _ _ _ _ R) as [R1 R2 R3 R4 R5 R6 R7].
    pose proof (std_components_ok _ _ _ _ Ecomp) as (_ & _ & Eprop & _).
    pose proof (world_keys nsq k' S' eo W' Seo) as Hk.
    destruct (build_ok k' (md_init m) obj (cat ps)) as (uc & lc & Eb & Q).
    - intros v w Hv Hw Ep. apply (world_ptr_eq nsq k' S' v w W'); auto.
      + rewrite Eprop in Hv. apply in_app_or in Hv as [Hv|Hv].
        * rewrite Forall_forall in Hk. apply Hk; auto.
        * rewrite Forall_forall in P1. apply P1; auto.
      + rewrite Eprop in Hw. apply in_app_or in Hw as [Hw|Hw].
        * rewrite Forall_forall in Hk. apply Hk; auto.
        * rewrite Forall_forall in P1. apply P1; auto.
    - rewrite Eprop. apply keys_nodup.
    - rewrite Eprop. apply Forall_forall. intros ge Hge. apply (gphi_keys eo ke obj ko Ecomp).
      apply in_map; auto.
    - rewrite Eprop. apply Forall_forall. intros x Hx. apply (hphi_keys eo ke obj ko Ecomp x Hx).
    - exact P2.
    - eapply Forall_impl; [|exact P4]. cbn; intuition.
    - eapply Forall_impl; [|exact P5]. cbn. intros l Hl. eapply Forall_impl; [|exact Hl]. cbn; intuition.
    - exact P6.
    - exact P7.
    - apply mi_init with (1 := Hm).
    - exact R6.
    - exists uc, lc. split; [|exact Q]. unfold std_problem, bind. rewrite E. cbn [fst snd now].
      unfold lift. rewrite Eb. reflexivity.
  Qed.

  Lemma std_problem_run nsq k S m sp k' :
    world nsq k S -> model_in S m -> std_problem m k = Ok (sp, k') ->
    exists obj S' eo ke ko ps ar jr uc lc,
      model_std m k = Ok ((obj, cat ps), k') /\
      std_run nsq k S m k' S' eo ke obj ko ps ar jr /\
      sp = mk_std_prob (p_problem k' (md_init m) obj (cat ps)) (v2i_of (problem_vars k' obj (cat ps)))
                        (enum (cs_ca (cat ps))) (enum (cs_cj (cat ps))) uc lc /\
      (forall i v, nth_error (problem_vars k' obj (cat ps)) i = Some v ->
         hget Nat.eqb i uc = snd (bfold (fun val cur => nleb val cur) v (cs_u (cat ps)) (INF, None))) /\
      nodupk Nat.eqb (map fst uc) /\ Forall (fun ic => fst ic < length (problem_vars k' obj (cat ps))) uc /\
      (forall i v, nth_error (problem_vars k' obj (cat ps)) i = Some v ->
         hget Nat.eqb i lc = snd (bfold (fun val cur => nleb cur val) v (cs_l (cat ps)) (nneg INF, None))) /\
      nodupk Nat.eqb (map fst lc) /\ Forall (fun ic => fst ic < length (problem_vars k' obj (cat ps))) lc.
  Proof.
    intros HW Hm E. assert (Em : exists obj cs k1, model_std m k = Ok ((obj, cs), k1)).
    { unfold std_problem in E. apply bind_ok in E as ([obj cs] & k1 & E & _). eauto. }
    destruct Em as (obj & cs & k1 & Em).
    destruct (std_problem_ok nsq k S m obj cs k1 HW Hm Em) as (uc & lc & E' & Q).
    rewrite E in E'. inversion E'; subst sp k1; clear E'.
    destruct (model_std_run nsq k S m obj cs k' HW Hm Em) as (S' & eo & ke & ko & ps & ar & jr & R & ->).
    exists obj, S', eo, ke, ko, ps, ar, jr, uc, lc. split; [exact Em|]. split; [exact R|]. split; [reflexivity|]. exact Q.
  Qed.

  (** The variables of the standard problem. *)
  Lemma run_vars_nodup nsq k S m k' S' eo ke obj ko ps ar jr :
    std_run nsq k S m k' S' eo ke obj ko ps ar jr -> nodupk ptr_eq (problem_vars k' obj (cat ps)).
  Proof. intros _. apply vars_nodup. Qed.

  Lemma run_vars_in nsq k S m k' S' eo ke obj ko ps ar jr v :
    std_run nsq k S m k' S' eo ke obj ko ps ar jr ->
    In v (problem_vars k' obj (cat ps)) <-> occurs v eo \/ In v (prop_keys (cat ps)).
  Proof.
    intros R.
    pose proof (sr_world _ _ _ _ _ _ _ _ _ _ _ _ _ R) as W'.
    pose proof (sr_eo _ _ _ _ _ _ _ _ _ _ _ _ _ R) as Seo.
    pose proof (sr_comp _ _ _ _ _ _ _ _ _ _ _ _ _ R) as Ecomp.
    pose proof (std_components_ok _ _ _ _ Ecomp) as (_ & _ & Eprop & _).
    pose proof (world_keys nsq k' S' eo W' Seo) as Hk. rewrite Forall_forall in Hk.
    pose proof (pi_keys _ _ (sr_in _ _ _ _ _ _ _ _ _ _ _ _ _ R)) as P1. rewrite Forall_forall in P1.
    rewrite vars_in.
    - rewrite in_app_iff, Eprop. rewrite <- (proj2 (keys_are_vars nsq k' S' eo W' Seo) v). reflexivity.
    - rewrite Eprop. intros a b Ha Hb Ep. apply (world_ptr_eq nsq k' S' a b W'); auto.
      + apply in_app_or in Ha as [Ha|Ha]; [apply Hk|apply P1]; auto.
      + apply in_app_or in Hb as [Hb|Hb]; [apply Hk|apply P1]; auto.
  Qed.

  Lemma run_vars_world nsq k S m k' S' eo ke obj ko ps ar jr v :
    std_run nsq k S m k' S' eo ke obj ko ps ar jr ->
    In v (problem_vars k' obj (cat ps)) -> S' v /\ is_var v = true.
  Proof.
    intros R Hv. apply (run_vars_in _ _ _ _ _ _ _ _ _ _ _ _ _ v R) in Hv as [Ho|Hv].
    - destruct Ho as [Hv Hs]. split; [|exact Hv].
      exact (world_sub nsq k' S' _ _ (sr_world _ _ _ _ _ _ _ _ _ _ _ _ _ R) (sr_eo _ _ _ _ _ _ _ _ _ _ _ _ _ R) Hs).
    - pose proof (pi_keys _ _ (sr_in _ _ _ _ _ _ _ _ _ _ _ _ _ R)) as P1. rewrite Forall_forall in P1. auto.
  Qed.
End StdMain.
