(** Property C54: first-order optimality of the solver's answer carries over to
    the model, with the recorded duals as Lagrange multipliers. *)
From Verif Require Import Base Num Node NodeInd NodeDiff NodeStd Constraint Matrix Problem ModelStd Model
     ExprSpec World MapProofs Properties_Diff StdPropProofs EvalProofs DiffSpec DiffProofs DerivProofs GradProofs HessProofs ConstrSpec ConstrProofs PartsProofs
     MatSpec ProblemProofs BuildProofs BuildMain ModelSpec PointProofs EvalRun SlotProofs EvalSpec StdFacts
     Api ApiProofs ModelApi StdMain HistProofs ModelExample Properties_Constr Properties_Std Properties_Feas SolveProofs OccProofs
     Properties_Eval Properties_HashSol Properties_Solve KktSpec KktProofs KktConverse LinOptProofs.
From Coq Require Import Reals Lra.
Local Open Scope R_scope.


(** The point recorded by [solve]. *)
Lemma solve_point `{HashOrd} (st : mstate X) solver m m' k' :
  hist any_op st -> In m (st_models st) -> solve solver m (st_k st) = (m', Returned (inl tt), k') ->
  exists sp stat s, std_problem m (st_k st) = Ok (sp, k') /\ solver (sp_prob sp) = Ok (inl (stat, s)) /\
    forall x, s_x s = pt x -> length x = m_nx (base_of (sp_prob sp)) -> inside_defaults (md_primals m') ->
      (forall i xi, nth_error x i = Some xi -> Rabs xi < 100000000) /\
      (forall v, model_var m v -> evaluate (md_primals m') v = evaluate (at_point sp (pt x)) v).
Proof.
  intros Hh Hm E. destruct (C33_primals st solver m m' k' Hh Hm E) as (sp & stat & s & Esp & Es & _ & _ & _ & Hval).
  exists sp, stat, s. split; [exact Esp|]. split; [exact Es|]. intros x Ex Hx Hbox. split.
  - intros i xi Hi. assert (Hl : (i < m_nx (base_of (sp_prob sp)))%nat).
    { rewrite <- Hx. apply nth_error_Some. congruence. }
    destruct (var_at st m sp k' Hh Hm Esp i Hl) as [v Hv]. destruct (Hval v i Hv) as (r & Hr & Hin & _).
    rewrite Ex in Hr. unfold pt in Hr. rewrite nth_error_map, Hi in Hr. injection Hr as <-. exact (Hbox v xi Hin).
  - intros v Hmv. destruct (C24_bijection st m sp k' Hh Hm Esp x_nm1) as (_ & _ & HA & _).
    pose proof (HA v Hmv) as Hin. apply in_map_iff in Hin as ([w i] & <- & Hin). cbn [fst] in *.
    rewrite (value_at st m sp k' Hh Hm Esp (pt x) w i Hin). destruct (Hval w i Hin) as (r & Hr & _ & Hg).
    assert (Hw : is_var w = true).
    { destruct Hmv as [Hmv|(c & _ & [Hmv|Hmv])]; [destruct (md_objective m); [apply Hmv|apply Hmv|destruct Hmv]|apply Hmv|apply Hmv]. }
    destruct w; try discriminate. cbn [evaluate]. rewrite <- Ex. rewrite (nth_error_nth _ _ _ Hr). rewrite Hg. reflexivity.
Qed.
(** A linear problem has no nonlinear functions. *)
Lemma linear_no_funs `{HashOrd} (st : mstate X) m sp k' obj cs slots :
  hist any_op st -> In m (st_models st) -> std_problem m (st_k st) = Ok (sp, k') ->
  model_std m (st_k st) = Ok ((obj, cs), k') -> placed (st_k st) m cs sp slots ->
  class_of (sp_prob sp) = ClLp \/ class_of (sp_prob sp) = ClMilp ->
  cs_f cs = [] /\ forall c r sl, In (c, SFun r sl) (combine (md_constraints m) slots) -> False.
Proof.
  intros Hh Hm Esp Em Hp Hcl.
  assert (Ecs : cs_f cs = []).
  { destruct (C29_well_formed st m (obj, cs) k' Hh Hm Em) as (sp' & E' & Hwf). rewrite Esp in E'. injection E' as <-.
    pose proof (f_equal (@length nat) (wf_jcons _ Hwf)) as L. rewrite map_length, seq_length, (pl_jcons _ _ _ _ _ Hp) in L.
    destruct (hist_run st m sp k' Hh Hm Esp) as (S & obj' & S' & eo & ke & ko & ps & ar & jr & uc & lc & Hi & Mi & HW & Em' & R & Esp' & _).
    rewrite Esp' in L, Hcl. cbn [sp_prob] in *. rewrite (proj1 (base_bufs k' (md_init m) obj' (cat ps))) in L.
    destruct (p_linear obj' (cat ps)) eqn:El.
    - cbn [lin_bufs b_f] in L. destruct (cs_f cs); [reflexivity|discriminate L].
    - unfold p_problem in Hcl. rewrite El in Hcl. destruct (no_int k' obj' (cat ps)); destruct Hcl; discriminate. }
  split; [exact Ecs|]. intros c r sl Hin. pose proof (pl_funs _ _ _ _ _ Hp) as Hfn. rewrite Ecs in Hfn. cbn in Hfn.
  assert (Hi : In r (flat_map fun_no slots)) by (apply in_flat_map; exists (SFun r sl); split; [exact (in_combine_r _ _ _ _ Hin)|left; reflexivity]).
  rewrite Hfn in Hi. destruct Hi.
Qed.

(** The answer recorded by [solve]: standard problem, point and places. *)
Lemma solve_parts `{HashOrd} (st : mstate X) solver m m' k' :
  hist any_op st -> In m (st_models st) -> solve solver m (st_k st) = (m', Returned (inl tt), k') ->
  NoDup (map cid (md_constraints m)) ->
  (forall sp stat s, std_problem m (st_k st) = Ok (sp, k') -> solver (sp_prob sp) = Ok (inl (stat, s)) -> kkt_answer (sp_prob sp) s) ->
  inside_defaults (md_primals m') ->
  exists sp s x lam nu mu pi,
    std_problem m (st_k st) = Ok (sp, k') /\ s_lam s = pt lam /\ s_nu s = pt nu /\ s_mu s = pt mu /\ s_pi s = pt pi /\
    kkt (sp_prob sp) x lam nu mu pi /\
    (forall obj cs slots, model_std m (st_k st) = Ok ((obj, cs), k') -> placed (st_k st) m cs sp slots ->
       forall c sl, In (c, sl) (combine (md_constraints m) slots) -> dual_of sp s c sl (hget constr_eqb c (md_duals m'))) /\
    (forall i xi, nth_error x i = Some xi -> Rabs xi < 100000000) /\
    (forall v, model_var m v -> evaluate (md_primals m') v = evaluate (at_point sp (pt x)) v).
Proof.
  intros Hh Hm E Hnd Hsol Hbox. destruct (solve_ok _ _ _ _ _ E) as (sp & stat & s & Esp & Es & Er).
  pose proof (record_spec _ _ _ _ _ _ Er (hist_v2i_nodup st m sp k' Hh Hm Esp)) as Hrec.
  destruct (solve_point st solver m m' k' Hh Hm E) as (sp' & stat' & s' & Esp' & Es' & Hpt).
  rewrite Esp in Esp'. injection Esp' as <-. rewrite Es in Es'. injection Es' as <- <-.
  destruct (Hsol _ _ _ Esp Es) as (x & lam & nu & mu & pi & Ex & Elam & Enu & Emu & Epi & Hk).
  exists sp, s, x, lam, nu, mu, pi. repeat (split; [assumption|]). split.
  - intros obj cs slots Em Hp c sl Hin. exact (dual_ok st m sp k' Hh Hm Esp Hnd obj cs slots Em Hp stat s m' Hrec c sl Hin).
  - exact (Hpt x Ex (proj1 (kkt_feasible _ _ _ _ _ _ Hk)) Hbox).
Qed.

Lemma affine_class `{HashOrd} (st : mstate X) m sp k' :
  hist any_op st -> In m (st_models st) -> std_problem m (st_k st) = Ok (sp, k') -> all_affine m ->
  class_of (sp_prob sp) = ClLp \/ class_of (sp_prob sp) = ClMilp.
Proof.
  intros Hh Hm E Ha. destruct (C28_class st m sp k' Hh Hm E x_nm1) as (H1 & H2 & H3 & H4).
  destruct (class_of (sp_prob sp)); auto; exfalso; [exact (proj1 (proj1 H3 eq_refl) Ha)|exact (proj1 (proj1 H4 eq_refl) Ha)].
Qed.
Lemma obj_same (m : model X) vs vs' : (forall v, model_var m v -> evaluate vs v = evaluate vs' v) -> obj_value m vs = obj_value m vs'.
Proof.
  intros Hv. unfold obj_value. unfold model_var in Hv. destruct (md_objective m) as [f|f|]; auto; [|f_equal]; apply evaluate_ext; auto.
Qed.

(** ** C54 Lagrange multipliers *)
(** Linear models: every history of calls. *)
Theorem C54_linear `{HashOrd} (st : mstate X) solver m m' k' :
  hist any_op st -> In m (st_models st) -> solve solver m (st_k st) = (m', Returned (inl tt), k') ->
  NoDup (map cid (md_constraints m)) -> Forall meaningful (md_constraints m) ->
  all_affine m ->
  (forall sp stat s, std_problem m (st_k st) = Ok (sp, k') -> solver (sp_prob sp) = Ok (inl (stat, s)) -> kkt_answer (sp_prob sp) s) ->
  inside_defaults (md_primals m') -> obj_value m (md_primals m') <> None ->
  lagrange m (md_primals m') (dual_value m').
Proof.
  intros Hh Hm E Hnd Hmean Haff Hsol Hbox Hdef.
  destruct (solve_parts st solver m m' k' Hh Hm E Hnd Hsol Hbox) as (sp & s & x & lam & nu & mu & pi & Esp & Elam & Enu & Emu & Epi & Hk & Hd & H8 & Hv).
  assert (Hcl : class_of (sp_prob sp) = ClLp \/ class_of (sp_prob sp) = ClMilp) by exact (affine_class st m sp k' Hh Hm Esp Haff).
  destruct (placed_all st m sp k' Hh Hm Esp) as (obj & cs & slots & Em & Hp & _).
  destruct Hk as [Hf Hlam Hmu Hpi (q & Eq & Hnu & Hst) Hsg Hslk].
  destruct (C30_linear st m sp k' _ x Hh Hm Esp Hcl (ev_start _) (proj1 Hf)) as (q' & Eq' & Ef & _ & _ & Hg).
  rewrite Eq in Eq'. injection Eq' as <-. rewrite Ef in Hnu.
  pose proof (linear_no_funs st m sp k' obj cs slots Hh Hm Esp Em Hp Hcl) as [Ecs Hns].
  apply (lagrange_ext m (at_point sp (pt x))); [intros v Hmv; symmetry; exact (Hv v Hmv)|].
  rewrite (obj_same m _ _ Hv) in Hdef. destruct (Hg Hdef) as [Hgo _].
  refine (lagrange_at st m sp k' Hh Hm Esp Hnd obj cs slots Em Hp x (proj1 Hf) lam nu mu pi q Hf Hlam _ Hst Hsg Hslk H8 _ Hgo _ s m' Elam Enu Emu Epi (Hd obj cs slots Em Hp) _).
  - rewrite Hnu, Ecs. reflexivity.
  - intros c r sl Hin. destruct (Hns c r sl Hin).
  - intros c r sl Hin. destruct (Hns c r sl Hin).
  - exact (C26_sound st m sp k' Hh Hm Esp x Hmean Hf).
Qed.

(** Models of every class, whose expressions divide no node by itself. *)
Theorem C54_multipliers `{HashOrd} (st : mstate X) solver m m' k' :
  hist no_self_quotient st -> In m (st_models st) -> solve solver m (st_k st) = (m', Returned (inl tt), k') ->
  NoDup (map cid (md_constraints m)) -> Forall meaningful (md_constraints m) ->
  (forall sp stat s, std_problem m (st_k st) = Ok (sp, k') -> solver (sp_prob sp) = Ok (inl (stat, s)) -> kkt_answer (sp_prob sp) s) ->
  inside_defaults (md_primals m') -> obj_value m (md_primals m') <> None ->
  lagrange m (md_primals m') (dual_value m').
Proof.
  intros Hh Hm E Hnd Hmean Hsol Hbox Hdef. pose proof (hist_any _ _ Hh) as Hh'.
  destruct (solve_parts st solver m m' k' Hh' Hm E Hnd Hsol Hbox) as (sp & s & x & lam & nu & mu & pi & Esp & Elam & Enu & Emu & Epi & Hk & Hd & H8 & Hv).
  assert (Hcl : (class_of (sp_prob sp) = ClLp \/ class_of (sp_prob sp) = ClMilp) \/ class_of (sp_prob sp) = ClNlp \/ class_of (sp_prob sp) = ClMinlp)
    by (destruct (class_of (sp_prob sp)); auto).
  destruct Hcl as [Hcl|Hcl].
  { apply (C54_linear st solver m m' k' Hh' Hm E Hnd Hmean); auto. destruct (C28_class st m sp k' Hh' Hm Esp x_nm1) as (H1 & H2 & _).
    destruct Hcl as [Hcl|Hcl]; [apply H1 in Hcl|apply H2 in Hcl]; apply Hcl. }
  destruct (C30_nonlinear st m sp k' Hh Hm Esp Hcl) as (obj & cs & slots & Em & Hp & Hev);
    destruct Hk as [Hf Hlam Hmu Hpi (q & Eq & Hnu & Hst) Hsg Hslk];
    destruct (Hev _ x (ev_start _) (proj1 Hf)) as (q' & Eq' & [Ev1 Ev2 Ev3 Ev4 Ev5 Ev6 Ev7 Ev8]);
    rewrite Eq in Eq'; injection Eq' as <-;
    apply (lagrange_ext m (at_point sp (pt x))); [intros v Hmv; symmetry; exact (Hv v Hmv)|];
    rewrite (obj_same m _ _ Hv) in Hdef;
    assert (Hfz : forall c r sl, In (c, SFun r sl) (combine (md_constraints m) slots) -> fun_value c sl (at_point sp (pt x)) = Some 0)
      by (intros c r sl Hin; destruct Hf as (_ & _ & (q2 & Eq2 & Hz) & _); rewrite Eq in Eq2; injection Eq2 as <-;
          rewrite Forall_forall in Hz; pose proof (nth_error_In _ _ (Ev6 c r sl Hin)) as Hi; exact (Hz _ Hi));
    refine (lagrange_at st m sp k' Hh' Hm Esp Hnd obj cs slots Em Hp x (proj1 Hf) lam nu mu pi q Hf Hlam _ Hst Hsg Hslk H8 Hfz (Ev2 Hdef) _ s m' Elam Enu Emu Epi (Hd obj cs slots Em Hp) _);
    [rewrite Hnu, Ev4, (pl_funs _ _ _ _ _ Hp), seq_length; reflexivity
    |intros c r sl Hin; apply (Ev7 c r sl Hin); rewrite (Hfz c r sl Hin); discriminate
    |exact (C26_sound st m sp k' Hh' Hm Esp x Hmean Hf)].
Qed.

(** Conversely the standard problem loses no first-order point of the model: a
    valuation with multipliers, within the default bounds, is a point of the standard
    problem with multipliers. *)
Theorem C54_complete `{HashOrd} (st : mstate X) m sp k' vs d B :
  hist no_self_quotient st -> In m (st_models st) -> std_problem m (st_k st) = Ok (sp, k') ->
  NoDup (map cid (md_constraints m)) ->
  lagrange m vs d -> B <= 100000000 -> in_box B m vs -> obj_value m vs <> None ->
  exists x lam nu mu pi, kkt (sp_prob sp) x lam nu mu pi /\
    (forall v, model_var m v -> evaluate (at_point sp (pt x)) v = evaluate vs v) /\
    forall i xi, nth_error x i = Some xi -> Rabs xi <= B.
Proof.
  intros Hh Hm E Hnd L HB Hbox Hdef. pose proof (hist_any _ _ Hh) as Hh'.
  destruct (complete_box st m sp k' Hh' Hm E vs B HB (lg_feasible _ _ _ L) Hbox) as (x & Hf & Hv & HBx).
  assert (L' : lagrange m (at_point sp (pt x)) d) by (apply (lagrange_ext m vs); [intros v Hmv; symmetry; exact (Hv v Hmv)|exact L]).
  rewrite <- (obj_same m _ _ Hv) in Hdef.
  assert (Hcl : (class_of (sp_prob sp) = ClLp \/ class_of (sp_prob sp) = ClMilp) \/ class_of (sp_prob sp) = ClNlp \/ class_of (sp_prob sp) = ClMinlp)
    by (destruct (class_of (sp_prob sp)); auto).
  assert (Hgoal : exists lam nu mu pi, kkt (sp_prob sp) x lam nu mu pi).
  { destruct Hcl as [Hcl|Hcl].
    - destruct (placed_all st m sp k' Hh' Hm E) as (obj & cs & slots & Em & Hp & _).
      destruct (C30_linear st m sp k' _ x Hh' Hm E Hcl (ev_start _) (proj1 Hf)) as (q & Eq & Ef & _ & _ & Hg).
      pose proof (linear_no_funs st m sp k' obj cs slots Hh' Hm E Em Hp Hcl) as [Ecs Hns]. destruct (Hg Hdef) as [Hgo _].
      refine (kkt_of_lagrange st m sp k' Hh' Hm E obj cs slots Em Hp x (proj1 Hf) q Hf Eq _ _ Hgo _ d L').
      + rewrite Ef, Ecs. reflexivity.
      + intros c r sl Hin. destruct (Hns c r sl Hin).
      + intros c r sl Hin. destruct (Hns c r sl Hin).
    - destruct (C30_nonlinear st m sp k' Hh Hm E Hcl) as (obj & cs & slots & Em & Hp & Hev).
      destruct (Hev _ x (ev_start _) (proj1 Hf)) as (q & Eq & [Ev1 Ev2 Ev3 Ev4 Ev5 Ev6 Ev7 Ev8]).
      assert (Hfz : forall c r sl, In (c, SFun r sl) (combine (md_constraints m) slots) -> fun_value c sl (at_point sp (pt x)) = Some 0).
      { intros c r sl Hin. destruct Hf as (_ & _ & (q2 & Eq2 & Hz) & _). rewrite Eq in Eq2. injection Eq2 as <-.
        rewrite Forall_forall in Hz. pose proof (nth_error_In _ _ (Ev6 c r sl Hin)) as Hi. exact (Hz _ Hi). }
      refine (kkt_of_lagrange st m sp k' Hh' Hm E obj cs slots Em Hp x (proj1 Hf) q Hf Eq _ Hfz (Ev2 Hdef) _ d L').
      + rewrite Ev4, (pl_funs _ _ _ _ _ Hp), seq_length. reflexivity.
      + intros c r sl Hin. apply (Ev7 c r sl Hin). rewrite (Hfz c r sl Hin). discriminate. }
  destruct Hgoal as (lam & nu & mu & pi & Hk). exists x, lam, nu, mu, pi. split; [exact Hk|]. split; [exact Hv|exact HBx].
Qed.

(** ** C55 Linear models: optimal inside the default bounds is optimal *)
Theorem C55_global `{HashOrd} (st : mstate X) solver m m' k' :
  hist any_op st -> In m (st_models st) -> solve solver m (st_k st) = (m', Returned (inl tt), k') ->
  Forall meaningful (md_constraints m) -> all_affine m -> ~ some_integer m ->
  (forall sp stat s, std_problem m (st_k st) = Ok (sp, k') -> solver (sp_prob sp) = Ok (inl (stat, s)) ->
     exists x, s_x s = pt x /\ optimal (sp_prob sp) x) ->
  inside_defaults (md_primals m') ->
  model_feasible m (md_primals m') /\
  forall vs b, model_feasible m vs -> obj_value m vs = Some b ->
    exists a, obj_value m (md_primals m') = Some a /\ a <= b.
Proof.
  intros Hh Hm E Hmean Haff Hni Hsol Hbox.
  destruct (C36_solve st solver m m' k' Hh Hm E Hmean) as [Hfm _].
  { intros sp stat s Esp Es. exact (Hsol sp stat s Esp Es). }
  split; [exact Hfm|]. intros vs b Hvs Hb.
  destruct (solve_point st solver m m' k' Hh Hm E) as (sp & stat & s & Esp & Es & Hpt).
  pose proof (proj2 (proj1 (C28_class st m sp k' Hh Hm Esp x_nm1)) (conj Haff Hni)) as Hcl.
  destruct (Hsol sp stat s Esp Es) as (x & Ex & Hopt). destruct (Hpt x Ex (proj1 (proj1 Hopt)) Hbox) as [H8 Hv].
  rewrite (obj_same m _ _ Hv). exact (lp_global st m sp k' Hh Hm Esp x vs b Hcl Hopt H8 Hvs Hb).
Qed.

(** The same from the first-order conditions alone. *)
Theorem C55_kkt `{HashOrd} (st : mstate X) solver m m' k' :
  hist any_op st -> In m (st_models st) -> solve solver m (st_k st) = (m', Returned (inl tt), k') ->
  Forall meaningful (md_constraints m) -> all_affine m -> ~ some_integer m ->
  (forall sp stat s, std_problem m (st_k st) = Ok (sp, k') -> solver (sp_prob sp) = Ok (inl (stat, s)) ->
     kkt_answer (sp_prob sp) s) ->
  inside_defaults (md_primals m') ->
  model_feasible m (md_primals m') /\
  forall vs b, model_feasible m vs -> obj_value m vs = Some b ->
    exists a, obj_value m (md_primals m') = Some a /\ a <= b.
Proof.
  intros Hh Hm E Hmean Haff Hni Hsol Hbox. apply (C55_global st solver m m' k' Hh Hm E Hmean Haff Hni); [|exact Hbox].
  intros sp stat s Esp Es. destruct (Hsol sp stat s Esp Es) as (x & lam & nu & mu & pi & Ex & _ & _ & _ & _ & Hk).
  pose proof (proj2 (proj1 (C28_class st m sp k' Hh Hm Esp x_nm1)) (conj Haff Hni)) as Hcl. exists x. split; [exact Ex|]. exact (lp_kkt st m sp k' Hh Hm Esp x lam nu mu pi Hcl Hk).
Qed.

(** ** The hypotheses are met
      minimise x   subject to   x >= 1,   x + y == 3,   x*y <= 0
    has the first-order point x = 3, y = 0 with multipliers 0, 1 and 1/3. *)
Definition km : model X := mk_model (Minimize cx) [ec1; ec2; ec3] [(cx, Some 2)] None [] [].
Definition kst : mstate X := mk_mstate 10 [cx; cy; cm; cs_] [ec1; ec2; ec3] [km].
Lemma kst_hist : @hist X _ no_self_quotient kst.
Proof.
  assert (H1 : @hist X _ no_self_quotient (mk_mstate 4 [cx; cy; cm; cs_] [] [])).
  { eapply (@hist_step X _ _ ord_id (mk_mstate 3 [cx; cy; cm] [] []) (CExpr (OAddNN 0 1))); [|exact I|].
    2:{ change (new_node (mk_mstate 3 [cx; cy; cm] [] []) (add_nn cx cy 3%nat) = Some (mk_mstate 4 [cx; cy; cm; cs_] [] [])).
        rewrite (ex_add 3%nat). reflexivity. }
    eapply (@hist_step X _ _ ord_id (mk_mstate 2 [cx; cy] [] []) (CExpr (OMulNN 0 1))); [|exact I|reflexivity].
    eapply (@hist_step X _ _ ord_id (mk_mstate 1 [cx] [] []) (CExpr (OVar "y"%string VarContinuous))); [|exact I|reflexivity].
    eapply (@hist_step X _ _ ord_id mstart (CExpr (OVar "x"%string VarContinuous))); [constructor|exact I|reflexivity]. }
  apply (@mrun_hist_nsq X _ ord_id [CCmpNS 0 GreaterEqual (Some 1) "c1"%string; CCmpNS 3 Equal (Some 3) "c2"%string;
                    CCmpNS 2 LessEqual (Some 0) "c3"%string; CNewModel; CSetObj 0 Minimise 0;
                    CAddConstrs 0 [0%nat; 1%nat; 2%nat]; CInit 0 [(0%nat, Some 2)]] _ _ H1); [|reflexivity].
  repeat constructor.
Qed.
Lemma km_std : exists sp k', @std_problem X _ ord_id km 10%nat = Ok (sp, k').
Proof.
  destruct (@hist_inv X _ false kst (@hist_any X _ ord_id _ _ kst_hist)) as (S & Hi).
  pose proof (hi_world _ _ _ Hi) as HW. pose proof (hi_cons _ _ _ Hi) as HC. cbn [st_cons kst st_k] in HC, HW.
  pose proof (hi_models _ _ _ Hi) as G. inversion G as [|? ? (Mi & _) _]; subst. clear G.
  assert (C1 : S (clhs ec1) /\ S (crhs ec1)) by (inversion HC; intuition).
  assert (C2 : S (clhs ec2) /\ S (crhs ec2)) by (inversion HC as [|? ? _ HC2]; inversion HC2; intuition).
  assert (C3 : S (clhs ec3) /\ S (crhs ec3)) by (inversion HC as [|? ? _ HC2]; inversion HC2 as [|? ? _ HC3]; inversion HC3; intuition).
  assert (Scx : S cx) by apply C1.
  destruct (@std_components X _ ord_id cx 10%nat) as [[obj ko]|p] eqn:Eo.
  2:{ exfalso. destruct (@std_components_panic X _ ord_id false 10%nat S cx p HW Scx Eo) as [_ Ha]. discriminate. }
  destruct (@std_components_grows X _ ord_id false 10%nat S cx HW Scx _ _ Eo) as (_ & S0 & I0 & W0 & _).
  destruct (ex_c12 false ko S0 ec1 0%nat 0%nat (or_introl eq_refl) W0) as ([[p1 a1] j1] & k1 & E1); [apply I0, C1|apply I0, C1|].
  destruct (@constr_std_in X _ ord_id false ko S0 ec1 0%nat 0%nat p1 a1 j1 k1 W0 (I0 _ (proj1 C1)) (I0 _ (proj2 C1)) E1) as (_ & S1 & I1 & W1 & _).
  destruct (ex_c12 false k1 S1 ec2 a1 j1 (or_intror eq_refl) W1) as ([[p2 a2] j2] & k2 & E2); [apply I1, I0, C2|apply I1, I0, C2|].
  destruct (@constr_std_in X _ ord_id false k1 S1 ec2 a1 j1 p2 a2 j2 k2 W1 (I1 _ (I0 _ (proj1 C2))) (I1 _ (I0 _ (proj2 C2))) E2) as (_ & S2 & I2 & W2 & _).
  destruct (ex_c3 false k2 S2 a2 j2 W2) as ([[p3 a3] j3] & k3 & E3); [apply I2, I1, I0, C3|apply I2, I1, I0, C3|].
  assert (Em : exists cs, @model_std X _ ord_id km 10%nat = Ok ((obj, cs), k3)).
  { eexists. unfold model_std. erewrite run_step; [|exact Eo]. unfold constrs_std. cbn [md_constraints km foldM].
    erewrite run_step.
    2:{ erewrite run_step; [|erewrite run_step; [|exact E1]; reflexivity].
        erewrite run_step; [|erewrite run_step; [|exact E2]; reflexivity].
        erewrite run_step; [|erewrite run_step; [|exact E3]; reflexivity]. reflexivity. }
    reflexivity. }
  destruct Em as [cs Em].
  destruct (@std_problem_ok X _ ord_id false 10%nat S km obj cs k3 HW Mi Em) as (uc & lc0 & Esp & _). eauto.
Qed.

Definition kvs : valsX := [(cx, Some 3); (cy, Some 0)].
Definition kd (c : constraint X) : R := match cid c with 7%nat => 1 | 9%nat => 1 / 3 | _ => 0 end.
Lemma km_var v : model_var km v -> v = cx \/ v = cy.
Proof.
  assert (A : forall e, occurs v e -> e = cx \/ e = cy \/ e = cm \/ e = cs_ \/ is_constant e = true -> v = cx \/ v = cy).
  { intros e Ho He. destruct He as [->|[->|[->|[->|He]]]].
    - apply occurs_inv in Ho as [[-> _]|(c & [] & _)]. auto.
    - apply occurs_inv in Ho as [[-> _]|(c & [] & _)]. auto.
    - apply occurs_inv in Ho as [[-> Hv]|(c & Hc & Ho)]; [discriminate|]. cbn in Hc.
      destruct Hc as [<-|[<-|[]]]; apply occurs_inv in Ho as [[-> _]|(c & [] & _)]; auto.
    - apply occurs_inv in Ho as [[-> Hv]|(c & Hc & Ho)]; [discriminate|]. cbn in Hc.
      destruct Hc as [<-|[<-|[]]]; apply occurs_inv in Ho as [[-> _]|(c & [] & _)]; auto.
    - destruct e; try discriminate. apply occurs_inv in Ho as [[-> Hv]|(c & [] & _)]. discriminate. }
  intros [Hv|(c & Hc & Hv)]; [exact (A _ Hv (or_introl eq_refl))|].
  destruct Hc as [<-|[<-|[<-|[]]]]; destruct Hv as [Hv|Hv]; apply (A _ Hv); cbn; auto 6.
Qed.

Lemma affine_partial (F : valsX -> X) vs (v : nodeX) x0 a b : evaluate vs v = Some x0 ->
  (forall t, F (upd vs v t) = Some (a * t + b)) -> partial_of F vs v a.
Proof.
  intros Ev HF. exists x0. split; [exact Ev|]. apply (hd_ext (fun t => x2 Rplus (x2 Rmult (Some a) (Some t)) (Some b))).
  - intros t. rewrite HF. reflexivity.
  - assert (G := hd_plus _ _ _ _ _ (hd_mult (fun _ => Some a) (fun t => Some t) x0 0 1 a x0 eq_refl eq_refl (hd_const a x0) (hd_id x0)) (hd_const b x0)).
    replace (x0 * 0 + a * 1 + 0) with a in G by lra. exact G.
Qed.
Lemma km_lagrange : lagrange km kvs kd.
Proof.
  constructor.
  - split.
    + intros v Hv. destruct (km_var v Hv) as [-> | ->]; [exists 3|exists 0]; (split; [reflexivity|discriminate]).
    + constructor; [|constructor; [|constructor; [|constructor]]]; eexists; eexists; (split; [cbn; reflexivity|]); (split; [cbn; reflexivity|]); cbn; lra.
  - intros c [<-|[<-|[<-|[]]]] Hk; cbn; try lra.
  - intros c r [<-|[<-|[<-|[]]]] Hk Er; cbn in Er; injection Er as <-; cbn; try lra.
  - intros v Hv. destruct (km_var v Hv) as [-> | ->].
    + exists 1, [1; 1; 0]. split; [|split].
      * apply (affine_partial _ _ _ 3 1 0); [reflexivity|]. intros t. cbn. f_equal. lra.
      * constructor; [|constructor; [|constructor; [|constructor]]].
        -- apply (affine_partial _ _ _ 3 1 (-1)); [reflexivity|]. intros t. cbn. f_equal. lra.
        -- apply (affine_partial _ _ _ 3 1 (-3)); [reflexivity|]. intros t. cbn. f_equal. lra.
        -- apply (affine_partial _ _ _ 3 0 0); [reflexivity|]. intros t. cbn. f_equal. lra.
      * unfold total. cbn. lra.
    + exists 0, [0; 1; 3]. split; [|split].
      * apply (affine_partial _ _ _ 0 0 3); [reflexivity|]. intros t. cbn. f_equal. lra.
      * constructor; [|constructor; [|constructor; [|constructor]]].
        -- apply (affine_partial _ _ _ 0 0 2); [reflexivity|]. intros t. cbn. f_equal. lra.
        -- apply (affine_partial _ _ _ 0 1 0); [reflexivity|]. intros t. cbn. f_equal. lra.
        -- apply (affine_partial _ _ _ 0 3 0); [reflexivity|]. intros t. cbn. f_equal. lra.
      * unfold total. cbn. lra.
Qed.
Lemma km_box : in_box 3 km kvs.
Proof.
  split.
  - intros v r Hv Er. destruct (km_var v Hv) as [-> | ->]; cbn in Er; injection Er as <-; apply Rabs_le; lra.
  - constructor; [|constructor; [|constructor; [|constructor]]]; intros a b Ea Eb; cbn in Ea, Eb; injection Ea as <-; injection Eb as <-; apply Rabs_le; lra.
Qed.
(** The hypotheses of [C54_complete]... *)
Example C54_complete_example : exists sp k', @hist X _ no_self_quotient kst /\ In km (st_models kst) /\
  @std_problem X _ ord_id km (st_k kst) = Ok (sp, k') /\ NoDup (map cid (md_constraints km)) /\
  lagrange km kvs kd /\ 3 <= 100000000 /\ in_box 3 km kvs /\ obj_value km kvs <> None.
Proof.
  destruct km_std as (sp & k' & E). exists sp, k'. split; [exact kst_hist|]. split; [left; reflexivity|]. split; [exact E|].
  split; [repeat constructor; cbn; intuition discriminate|]. split; [exact km_lagrange|]. split; [lra|]. split; [exact km_box|]. discriminate.
Qed.
(** A solver that answers with given multipliers. *)
Lemma answers (st : mstate X) m sp k' x lam nu mu pi B :
  hist any_op st -> In m (st_models st) -> @std_problem X _ ord_id m (st_k st) = Ok (sp, k') ->
  @kkt (sp_prob sp) x lam nu mu pi -> B < 100000000 -> (forall i xi, nth_error x i = Some xi -> Rabs xi <= B) ->
  exists solver m', @solve X _ ord_id solver m (st_k st) = (m', Returned (inl tt), k') /\
    (forall sp stat s, @std_problem X _ ord_id m (st_k st) = Ok (sp, k') -> solver (sp_prob sp) = Ok (inl (stat, s)) -> kkt_answer (sp_prob sp) s) /\
    inside_defaults (md_primals m') /\
    forall v, model_var m v -> evaluate (md_primals m') v = evaluate (at_point sp (pt x)) v.
Proof.
  intros Hh' Hin E Hk HB8 HB.
  set (solver := fun _ : problem X => Ok (inl (Solved, mk_sol (pt x) (pt lam) (pt nu) (pt mu) (pt pi))) : res (answer (T := X))).
  assert (Hnu : length nu = length (b_f (m_bufs (base_of (sp_prob sp))))).
  { destruct (kkt_stationary _ _ _ _ _ _ Hk) as (q & Eq & Hl & _).
    destruct (@hist_run X _ ord_id st m sp k' Hh' Hin E) as (S & obj & S' & eo & ke & ko & ps & ar & jr & uc & lc & Hi & Mi & HW & Em & R & Esp & _).
    destruct (@run_evaluate X _ ord_id _ _ _ _ _ _ _ _ _ _ _ _ _ _ (pt x) R (ev_start _)) as (q' & Eq' & Eb & Hev).
    { unfold pt. rewrite map_length, (proj1 (kkt_feasible _ _ _ _ _ _ Hk)), Esp. apply (@base_shape X _ ord_id). }
    rewrite Esp in Eq |- *. cbn [sp_prob] in *. rewrite Eq in Eq'. injection Eq' as <-. rewrite Hl. symmetry.
    rewrite Eb. destruct (@base_bufs X _ ord_id k' (md_init m) obj (cat ps)) as [-> _]. unfold bufs_at.
    destruct (p_linear obj (cat ps)); [reflexivity|]. cbn [nl_bufs b_f]. rewrite repeat_length, map_length. reflexivity. }
  destruct (@C33_returns X _ ord_id st solver m sp k' Solved _ Hh' Hin E eq_refl) as (m' & Em);
    cbn [s_x s_lam s_nu s_mu s_pi]; unfold pt; rewrite ?map_length.
  all: try (rewrite (proj1 (kkt_feasible _ _ _ _ _ _ Hk)); apply Nat.le_refl).
  all: try (rewrite (kkt_mu _ _ _ _ _ _ Hk), (proj1 (kkt_feasible _ _ _ _ _ _ Hk)); apply Nat.le_refl).
  all: try (rewrite (kkt_pi _ _ _ _ _ _ Hk), (proj1 (kkt_feasible _ _ _ _ _ _ Hk)); apply Nat.le_refl).
  all: try (rewrite (kkt_lam _ _ _ _ _ _ Hk); apply Nat.le_refl).
  all: try (rewrite Hnu; apply Nat.le_refl).
  exists solver, m'. split; [exact Em|].
  split.
  { intros sp' stat s E' Es. rewrite E in E'. injection E' as <-. injection Es as <- <-.
    exists x, lam, nu, mu, pi. cbn [s_x s_lam s_nu s_mu s_pi]. repeat (split; [reflexivity|]). exact Hk. }
  destruct (@C33_primals X _ ord_id st solver m m' k' Hh' Hin Em) as (sp' & stat & s & E' & Es & _ & Hperm & Hndk & Hval).
  rewrite E in E'. injection E' as <-. injection Es as <- <-. cbn [s_x] in Hval.
  assert (Hins : inside_defaults (md_primals m')).
  { intros v r Hvr. assert (Hv' : In v (map fst (sp_var2index sp))) by (apply (Permutation_in _ Hperm); apply in_map_iff; exists (v, Some r); auto).
    apply in_map_iff in Hv' as ([w i] & Ew & Hw). cbn [fst] in Ew. subst w. destruct (Hval v i Hw) as (xi & Hx & _ & Hg).
    assert (Hg' : hget ptr_eq v (md_primals m') = Some (Some r)) by (apply pget_in; assumption).
    rewrite Hg in Hg'. injection Hg' as ->. unfold pt in Hx. rewrite nth_error_map in Hx. destruct (nth_error x i) as [r'|] eqn:Ex; [|discriminate].
    cbn in Hx. injection Hx as <-. exact (Rle_lt_trans _ _ _ (HB i r' Ex) HB8). }
  split; [exact Hins|].
  destruct (@solve_point ord_id st solver m m' k' Hh' Hin Em) as (sp' & stat & s & E' & Es & Hpt).
  rewrite E in E'. injection E' as <-. injection Es as <- <-. cbn [s_x] in Hpt.
  destruct (Hpt x eq_refl (proj1 (kkt_feasible _ _ _ _ _ _ Hk)) Hins) as [_ Hv'].
  exact Hv'.
Qed.
(** ... and of [C54_multipliers], for a nonlinear problem: the solver answers with the
    point and multipliers that [C54_complete] gives. *)
Example C54_example : exists solver m' k', @hist X _ no_self_quotient kst /\ In km (st_models kst) /\
  @solve X _ ord_id solver km (st_k kst) = (m', Returned (inl tt), k') /\
  NoDup (map cid (md_constraints km)) /\ Forall meaningful (md_constraints km) /\
  (forall sp stat s, @std_problem X _ ord_id km (st_k kst) = Ok (sp, k') -> solver (sp_prob sp) = Ok (inl (stat, s)) -> kkt_answer (sp_prob sp) s) /\
  inside_defaults (md_primals m') /\ obj_value km (md_primals m') <> None.
Proof.
  destruct C54_complete_example as (sp & k' & Hh & Hin & E & Hnd & L & H3 & Hbox & Hdef).
  destruct (@C54_complete ord_id kst km sp k' kvs kd 3 Hh Hin E Hnd L H3 Hbox Hdef) as (x & lam & nu & mu & pi & Hk & Hv & HB).
  destruct (answers kst km sp k' x lam nu mu pi 3 (@hist_any X _ ord_id _ _ Hh) Hin E Hk ltac:(lra) HB) as (solver & m' & Em & Hsol & Hins & Hv').
  exists solver, m', k'. split; [exact Hh|]. split; [exact Hin|]. split; [exact Em|]. split; [exact Hnd|].
  split; [constructor; [|constructor; [|constructor; [|constructor]]]; exists kvs; eexists; eexists; (split; [cbn; reflexivity|cbn; reflexivity])|].
  split; [exact Hsol|]. split; [exact Hins|].
  rewrite (obj_same km _ kvs); [exact Hdef|]. intros v Hm. rewrite (Hv' v Hm). exact (Hv v Hm).
Qed.
(** ... and of [C55_global] and [C55_kkt]: minimise x subject to x >= 1, multiplier 1. *)
Example C55_example : exists solver m' k', @hist X _ any_op (lst 1) /\ In (lm 1) (st_models (lst 1)) /\
  @solve X _ ord_id solver (lm 1) (st_k (lst 1)) = (m', Returned (inl tt), k') /\
  Forall meaningful (md_constraints (lm 1)) /\ all_affine (lm 1) /\ ~ some_integer (lm 1) /\
  (forall sp stat s, @std_problem X _ ord_id (lm 1) (st_k (lst 1)) = Ok (sp, k') -> solver (sp_prob sp) = Ok (inl (stat, s)) ->
     kkt_answer (sp_prob sp) s /\ exists x, s_x s = pt x /\ optimal (sp_prob sp) x) /\
  inside_defaults (md_primals m').
Proof.
  destruct (lm_std 1 ltac:(lra)) as (sp & k' & E). assert (Hin : In (lm 1) (st_models (lst 1))) by (cbn; auto).
  assert (Hh : @hist X _ no_self_quotient (lst 1)).
  { apply (@mrun_hist_nsq X _ ord_id [CExpr (OVar "x"%string VarContinuous); CCmpNS 0 GreaterEqual (Some 1) "lc"%string; CNewModel;
           CSetObj 0 Minimise 0; CAddConstr 0 0] mstart); [constructor|repeat constructor|reflexivity]. }
  assert (Hvar : forall v, model_var (lm 1) v -> v = cx).
  { intros v [Hv|(c & [<-|[]] & [Hv|Hv])]; apply occurs_inv in Hv as [[-> Hv]|(c & [] & _)]; try discriminate; reflexivity. }
  assert (Hbox : in_box 1 (lm 1) [(cx, Some 1)]).
  { split.
    - intros v r Hv Ev. rewrite (Hvar v Hv) in Ev. cbn in Ev. injection Ev as <-. rewrite Rabs_R1. lra.
    - constructor; [|constructor]. intros a b Ea Eb. cbn in Ea, Eb. injection Ea as <-. injection Eb as <-.
      replace (1 - 1) with 0 by lra. rewrite Rabs_R0. lra. }
  assert (L : lagrange (lm 1) [(cx, Some 1)] (fun _ => 1)).
  { constructor.
    - apply lm_feasible. exists 1. split; [reflexivity|lra].
    - intros; lra.
    - intros c r [<-|[]] _ Er. cbn in Er. injection Er as <-. lra.
    - intros v Hv. rewrite (Hvar v Hv). exists 1, [1]. split; [|split].
      + apply (affine_partial _ _ _ 1 1 0); [reflexivity|]. intros t. cbn. f_equal. lra.
      + constructor; [|constructor]. apply (affine_partial _ _ _ 1 1 (-1)); [reflexivity|]. intros t. cbn. f_equal. lra.
      + unfold total. cbn. lra. }
  destruct (@C54_complete ord_id (lst 1) (lm 1) sp k' [(cx, Some 1)] (fun _ => 1) 1 Hh Hin E) as (x & lam & nu & mu & pi & Hk & Hv & HB);
    [repeat constructor; cbn; intuition|exact L|lra|exact Hbox|discriminate|].
  destruct (answers (lst 1) (lm 1) sp k' x lam nu mu pi 1 (lst_hist 1) Hin E Hk ltac:(lra) HB) as (solver & m' & Em & Hsol & Hins & _).
  assert (Ha : all_affine (lm 1)). { split; [reflexivity|]. intros c [<-|[]]. split; reflexivity. }
  assert (Hni : ~ some_integer (lm 1)). { intros (v & Hv' & Hi). rewrite (Hvar v Hv') in Hi. discriminate. }
  exists solver, m', k'. split; [exact (lst_hist 1)|]. split; [exact Hin|]. split; [exact Em|]. split; [apply lm_meaningful|].
  split; [exact Ha|]. split; [exact Hni|]. split; [|exact Hins].
  intros sp' stat s E' Es. pose proof (Hsol sp' stat s E' Es) as Hk'. split; [exact Hk'|].
  destruct Hk' as (x' & lam' & nu' & mu' & pi' & Ex & _ & _ & _ & _ & Hk'). exists x'. split; [exact Ex|].
  exact (@lp_kkt ord_id (lst 1) (lm 1) sp' k' (lst_hist 1) Hin E' x' _ _ _ _ (proj2 (proj1 (@C28_class X _ ord_id (lst 1) (lm 1) sp' k' (lst_hist 1) Hin E' x_nm1)) (conj Ha Hni)) Hk').
Qed.
