(** Properties C49, C50, C51: the Ipopt interface. *)
From Verif Require Import Base Num Node Constraint NodeInd Matrix Problem ModelStd Model MatSpec MatrixProofs SumDupProofs ProblemProofs SolverBase
     ModelApi ExprSpec Api ApiProofs PartsProofs BuildProofs BuildMain ModelSpec PointProofs EvalRun HistProofs StdMain Properties_Std Properties_Eval Ipopt IpoptSpec IpoptProofs.
From Coq Require Import Floats.SpecFloat.

Section Ipopt.
  Context {T : Type} `{Num T}.
  Variable q0 : minlp T.
  Hypothesis Hs : nlp_sane q0.

  (** ** C49 The callbacks give the values at the point they are passed *)
  Theorem C49_values (p : nlp T) cs : evolves q0 (nlp_base p) -> Forall (well_called q0) cs -> honours None cs ->
    exists p' rs, run_calls p cs = Ok (p', rs) /\ evolves q0 (nlp_base p') /\ length rs = length cs /\
      forall i c r, nth_error cs i = Some c -> nth_error rs i = Some r -> right_values q0 c r.
  Proof.
    intros E Hw Hh. destruct (run_calls_ok q0 _ Hs cs None None p (start_inv q0 p E) Hw Hh) as (p' & rs & E1 & I & L & R).
    exists p', rs. split; [exact E1|]. split; [apply (iv_ev _ _ _ _ _ I)|]. split; [exact L|]. intros i c r Hc Hr. apply (R i c r Hc Hr).
  Qed.

  (** The structure of the Jacobian, as reported: the rows of [J] are not moved below
      those of [A]. *)
  Theorem C49_structure (p : nlp T) n x nx m k ir jc : evolves q0 (nlp_base p) ->
    well_called q0 (EvalJacG n x nx m k ir jc None) ->
    callback p (EvalJacG n x nx m k ir jc None) =
    Ok (p, mk_reply true None (Some (rows_at 0 (m_a q0) ++ rows_at 0 (b_j (m_bufs q0)))) (Some (jac_cols q0))).
  Proof.
    intros E Hw. destruct (callback_ok q0 _ None None p _ Hs (start_inv q0 p E) Hw I) as (p' & r & E1 & _ & _ & R).
    rewrite E1. subst r. cbn [callback] in E1. unfold eval_jac_g_cb in E1.
    repeat match type of E1 with (if ?c then _ else _) = _ => destruct c; [|discriminate] end.
    destruct ir as [ir|]; [|discriminate]. destruct jc as [jc|]; [|discriminate].
    repeat (match type of E1 with rbind ?m _ = _ => destruct m; [|discriminate] end; cbn [rbind] in E1).
    injection E1 as <- _ _. reflexivity.
  Qed.
  (** It is the right one exactly when there are no linear rows or no nonlinear entries. *)
  Theorem C49_structure_right_iff :
    rows_at 0 (m_a q0) ++ rows_at 0 (b_j (m_bufs q0)) = jac_rows q0 <-> m_na q0 = 0 \/ entries (b_j (m_bufs q0)) = [].
  Proof.
    unfold jac_rows, rows_at. split.
    - intros E. apply app_inv_head in E. destruct (entries (b_j (m_bufs q0))) as [|[[i j] v] l]; [right; reflexivity|left].
      cbn in E. injection E as E _. lia.
    - intros [-> | ->]; reflexivity.
  Qed.
  Lemma rows_in_bounds off n (m : coo T) : indices_ok m -> off + coo_rows m <= n -> in_bounds n (rows_at off m).
  Proof.
    clear. intros Hi Hn. unfold in_bounds, rows_at. apply Forall_forall. intros z Hz. apply in_map_iff in Hz. destruct Hz as ([[i j] v] & <- & Hin).
    destruct (Hi _ _ _ Hin). cbn [fst snd]. lia.
  Qed.
  Lemma cols_in_bounds n (m : coo T) : indices_ok m -> coo_cols m <= n -> in_bounds n (cols_at m).
  Proof.
    clear. intros Hi Hn. unfold in_bounds, cols_at. apply Forall_forall. intros z Hz. apply in_map_iff in Hz. destruct Hz as ([[i j] v] & <- & Hin).
    destruct (Hi _ _ _ Hin). cbn [fst snd]. lia.
  Qed.
  (** In all cases the positions are inside the matrix. *)
  Theorem C49_in_bounds :
    in_bounds (m_na q0 + m_nf q0) (rows_at 0 (m_a q0) ++ rows_at 0 (b_j (m_bufs q0))) /\ in_bounds (m_nx q0) (jac_cols q0).
  Proof.
    pose proof (fixed_ok _ _ Hs (ev_start q0)) as Fx. pose proof (fx_lb _ _ Fx) as Lb. destruct (fx_rj _ _ Fx) as [R1 R2].
    split; apply Forall_app; split.
    - apply rows_in_bounds; [apply (fx_ia _ _ Fx)|unfold m_na; lia].
    - apply rows_in_bounds; [apply (fx_ij _ _ Fx)|lia].
    - apply cols_in_bounds; [apply (fx_ia _ _ Fx)|unfold m_nx; lia].
    - apply cols_in_bounds; [apply (fx_ij _ _ Fx)|lia].
  Qed.

  (** ** C50 The Hessian callback *)
  Lemma shape_of x bf : values_at q0 x bf -> exists q', evolves q0 q' /\ m_bufs q' = bf.
  Proof. intros (q' & E & <-). exists q'. split; [eapply ev_eval; [apply ev_start|exact E]|reflexivity]. Qed.
  Lemma h_shape q : evolves q0 q -> Forall coo_wf (b_h (m_bufs q)) /\ Forall2 same_structure (b_h (m_bufs q0)) (b_h (m_bufs q)).
  Proof.
    intros Hq. destruct Hs as [M _ _]. destruct M as (hphi & a & b & j & h & l & u & p & x0 & ev & E & B1 & B2 & B3 & B4 & Hk & _).
    destruct (minlp_new_inv _ _ _ _ _ _ _ _ _ _ _ B4 E) as [D ->].
    destruct (evolves_inv _ _ _ _ _ _ _ _ _ _ _ Hk B4 D Hq) as (bf & d & (_ & _ & _ & _ & S5) & _ & ->). cbn [m_bufs made b_h] in *.
    split; [|exact S5]. clear -S5 B4. induction S5; constructor; inversion B4; subst; auto. eapply same_wf; eassumption.
  Qed.
  Lemma scaled_data v (m : coo T) : coo_wf m -> map snd (scaled v m) = map (fun w => nmul v w) (coo_data m).
  Proof. clear. intros W. unfold scaled. rewrite map_map. cbn [snd]. rewrite <- (entries_data m W), map_map. reflexivity. Qed.
  Lemma combined_eq hs nu : Forall coo_wf hs -> map snd (flat_map (fun hn => scaled (snd hn) (fst hn)) (combine hs nu)) = combined hs nu.
  Proof.
    clear. intros W. revert nu. induction W as [|m hs Wm W IH]; intros [|v nu]; try reflexivity.
    unfold combined in *. cbn [combine flat_map map concat fst snd]. rewrite map_app, IH, scaled_data by exact Wm. reflexivity.
  Qed.
  Lemma lag_values bf x factor nu : values_at q0 x bf ->
    map snd (lagrangian bf factor nu) = map (fun v => nmul factor v) (coo_data (b_hphi bf)) ++ combined (b_h bf) nu.
  Proof.
    intros V. destruct (shape_of x bf V) as (q & Hq & <-). unfold lagrangian.
    rewrite map_app, scaled_data by apply (fx_whphi _ _ (fixed_ok _ _ Hs Hq)). rewrite combined_eq by apply (h_shape q Hq). reflexivity.
  Qed.
  Lemma lag_positions bf x factor nu : values_at q0 x bf -> length nu = m_nf q0 ->
    map fst (lagrangian bf factor nu) = lag_pos (m_bufs q0).
  Proof.
    intros V Hn. destruct (shape_of x bf V) as (q & Hq & <-). destruct (h_shape q Hq) as [Wq Sq]. destruct (h_shape q0 (ev_start q0)) as [W0 _].
    pose proof (fixed_ok _ _ Hs Hq) as Fx. unfold lagrangian, lag_pos, scaled. rewrite map_app, map_map. cbn [fst]. f_equal.
    - apply same_pattern; [apply (fx_hphi _ _ Fx)|apply (fx_whphi _ _ (fixed_ok _ _ Hs (ev_start q0)))].
    - assert (Ln : length nu = length (b_h (m_bufs q))) by (rewrite (fx_lh _ _ Fx); exact Hn). clear -Ln Sq W0. revert nu Ln.
      induction Sq as [|m m' h h' Hm Hl IH]; intros [|v nu] Ln; try discriminate; [reflexivity|].
      inversion W0 as [|? ? Wm W0']; subst. cbn [combine flat_map fst snd]. rewrite map_app, map_map. f_equal; [exact (same_pattern m m' Hm Wm)|].
      apply (IH W0'). cbn in Ln. lia.
  Qed.
  Lemma pos_rows : map (fun ij => Z.of_nat (fst ij)) (lag_pos (m_bufs q0)) =
    rows_at 0 (b_hphi (m_bufs q0)) ++ map Z.of_nat (concat (map coo_ri (b_h (m_bufs q0)))).
  Proof.
    destruct (h_shape q0 (ev_start q0)) as [W0 _]. unfold lag_pos. rewrite map_app, map_map. f_equal.
    clear -W0. induction W0 as [|m hs Wm W IH]; [reflexivity|]. cbn [flat_map map concat]. rewrite !map_app, IH, <- (entries_rows m Wm), !map_map. reflexivity.
  Qed.
  Lemma entries_cols (m : coo T) : coo_wf m -> map (fun e => snd (fst e)) (entries m) = coo_ci m.
  Proof.
    clear. intros [W1 W2]. unfold entries. rewrite <- (map_map fst snd).
    assert (G1 : forall A B (l : list A) (l' : list B), length l <= length l' -> map fst (combine l l') = l).
    { intros A B l. induction l as [|a l IHl]; intros [|b l'] Hle; cbn in *; auto; try lia. f_equal. apply IHl; lia. }
    assert (G2 : forall A B (l : list A) (l' : list B), length l' <= length l -> map snd (combine l l') = l').
    { intros A B l l'; revert l. induction l' as [|b l' IHl]; intros [|a l] Hle; cbn in *; auto; try lia. f_equal. apply IHl; lia. }
    rewrite G1 by (rewrite combine_length; lia). apply G2; lia.
  Qed.
  Lemma pos_cols : map (fun ij => Z.of_nat (snd ij)) (lag_pos (m_bufs q0)) =
    cols_at (b_hphi (m_bufs q0)) ++ map Z.of_nat (concat (map coo_ci (b_h (m_bufs q0)))).
  Proof.
    destruct (h_shape q0 (ev_start q0)) as [W0 _]. unfold lag_pos. rewrite map_app, map_map. f_equal.
    clear -W0. induction W0 as [|m hs Wm W IH]; [reflexivity|]. cbn [flat_map map concat]. rewrite !map_app, IH, <- (entries_cols m Wm), !map_map. reflexivity.
  Qed.

  Theorem C50_characterised (p : nlp T) cs : evolves q0 (nlp_base p) -> Forall (well_called q0) cs -> honours None cs ->
    exists p' rs, run_calls p cs = Ok (p', rs) /\ length rs = length cs /\
      forall i c r, nth_error cs i = Some c -> nth_error rs i = Some r ->
        actual_hessian q0 (coo_data (m_hcomb (nlp_base p))) (firstn i cs) c r.
  Proof.
    intros E Hw Hh. destruct (run_calls_ok q0 _ Hs cs None None p (start_inv q0 p E) Hw Hh) as (p' & rs & E1 & I & L & R).
    exists p', rs. split; [exact E1|]. split; [exact L|]. intros i c r Hc Hr. destruct (R i c r Hc Hr) as [_ F].
    fold (latest_lambda (firstn i cs)) in F. rewrite Forall_forall in Hw. specialize (Hw c (nth_error_In _ _ Hc)).
    destruct c as [| | | |n x new_x fac m la nl k ir jc vals]; try exact Logic.I.
    cbn [actual_hessian]. destruct x as [x|]; [|exact Logic.I]. destruct la as [la|]; [|exact Logic.I]. destruct vals as [mem|]; [|exact Logic.I].
    cbn beta iota zeta in F. cbn [step_lambda] in F. destruct (nl =? 1)%Z eqn:En.
    - rewrite orb_true_r in F. destruct F as (bf & d & V & (bf' & V' & ->) & ->). rewrite (values_fun _ _ _ _ V' V) in *.
      cbn [right_hessian]. exists bf. split; [exact V|]. split.
      + apply (lag_positions bf x); [exact V|]. cbn [well_called] in Hw. destruct Hw as (_ & _ & _ & [(Hv & _)|(_ & _ & (la' & El & Ll))]); [discriminate|].
        injection El as <-. rewrite skipn_length. lia.
      + rewrite (lag_values bf x _ _ V). reflexivity.
    - rewrite orb_false_r in F. destruct (new_x =? 1)%Z; [|exact F].
      destruct F as (bf & d & V & Hd & ->). exists bf. split; [exact V|].
      destruct (shape_of x bf V) as (q & Hq & <-). rewrite scaled_data by apply (fx_whphi _ _ (fixed_ok _ _ Hs Hq)).
      unfold hcomb_is in Hd. destruct (latest_lambda (firstn i cs)) as [[x' la']|]; [|subst d; reflexivity].
      destruct Hd as (bf' & V' & ->). exists bf'. split; [exact V'|reflexivity].
  Qed.
  (** With new multipliers the answer is right, as is every answer on the structure. *)
  Theorem C50_new_lambda (p : nlp T) cs : evolves q0 (nlp_base p) -> Forall (well_called q0) cs -> honours None cs ->
    exists p' rs, run_calls p cs = Ok (p', rs) /\ length rs = length cs /\
      forall i c r, nth_error cs i = Some c -> nth_error rs i = Some r ->
        new_lambda_of c = true \/ point_of c = None -> right_hessian q0 c r.
  Proof.
    intros E Hw Hh. destruct (C50_characterised p cs E Hw Hh) as (p' & rs & E1 & L & R). exists p', rs. split; [exact E1|]. split; [exact L|].
    destruct (run_calls_ok q0 _ Hs cs None None p (start_inv q0 p E) Hw Hh) as (p2 & rs2 & E2 & _ & _ & R2). rewrite E1 in E2. injection E2 as <- <-.
    intros i c r Hc Hr Hn. specialize (R i c r Hc Hr). specialize (R2 i c r Hc Hr). rewrite Forall_forall in Hw. specialize (Hw c (nth_error_In _ _ Hc)).
    destruct c as [| | | |n x new_x fac m la nl k ir jc [mem|]]; try exact Logic.I.
    - cbn [right_hessian]. destruct x as [x|]; [|exact Logic.I]. destruct la as [la|]; [|exact Logic.I].
      cbn [new_lambda_of point_of] in Hn. destruct Hn as [Hn|Hn]; [|discriminate]. cbn [actual_hessian] in R. rewrite Hn in R. exact R.
    - destruct R2 as [_ R2]. cbn [right_hessian]. destruct x, la; rewrite pos_rows, pos_cols; exact R2.
  Qed.
End Ipopt.

(** ** C51 The solution *)
Section Solve.
  Context {T : Type} `{Num T}.
  Lemma plays_run s : forall (p p' : nlp T) cs code x la pi mu, plays s p p' cs code x la pi mu ->
    run_play s p = Ok (p', mk_answer code (tabulate (m_nx (nlp_base p')) x) (tabulate (m_na (nlp_base p') + m_nf (nlp_base p')) la)
                                     (tabulate (m_nx (nlp_base p')) pi) (tabulate (m_nx (nlp_base p')) mu)).
  Proof.
    intros p p' cs code x la pi mu Hp. induction Hp as [|c k p r p1 p' cs code x la pi mu E Hp IH]; [reflexivity|].
    cbn [run_play]. rewrite E. cbn [rbind fst snd]. exact IH.
  Qed.
  Lemma neg_loop (la : nat -> T) (f : nat -> nat) n m : forall d rest k0,
    (forall k, k0 <= k < k0 + n -> f k = length d + (k - k0)) -> k0 + n <= m -> length rest = n ->
    foldR (fun lam k => rbind (vget (tabulate m la) k) (fun v => vset lam (f k) (nneg v))) (seq k0 n) (d ++ rest) =
    Ok (d ++ map (fun k => nneg (la k)) (seq k0 n)).
  Proof.
    induction n as [|n IH]; intros d rest k0 Hf Hm Hr; cbn [seq foldR map].
    - destruct rest; [reflexivity|discriminate].
    - destruct rest as [|y rest]; [discriminate|]. unfold tabulate at 1. rewrite vget_map_seq by lia. cbn [rbind Nat.add].
      rewrite Hf by lia. rewrite Nat.sub_diag, Nat.add_0_r, vset_app. cbn [rbind].
      pose proof (IH (d ++ [nneg (la k0)]) rest (S k0)) as G. rewrite <- !app_assoc in G. cbn [app] in G. apply G; [|lia|cbn in Hr; lia].
      intros k Hk. rewrite Hf by lia. rewrite app_length. cbn [length]. lia.
  Qed.
  Lemma sol_ok (p : nlp T) code x la pi mu :
    let n := m_nx (nlp_base p) in let na := m_na (nlp_base p) in let nf := m_nf (nlp_base p) in
    ipopt_sol p (mk_answer code (tabulate n x) (tabulate (na + nf) la) (tabulate n pi) (tabulate n mu)) =
    Ok (mk_sol (tabulate n x) (tabulate na (fun k => nneg (la k))) (tabulate nf (fun k => nneg (la (na + k)))) (tabulate n mu) (tabulate n pi)).
  Proof.
    intros n na nf. unfold ipopt_sol. fold n na nf. unfold sol_new, copy_from_slice. cbn [an_x an_lamnu an_pi an_mu s_x s_lam s_nu s_pi s_mu].
    unfold tabulate at 1 2 5 6. rewrite !map_length, !seq_length, !repeat_length, !Nat.eqb_refl. cbn [rbind].
    pose proof (neg_loop la (fun k => k) na (na + nf) [] (repeat n0 na) 0) as G1. cbn [app length] in G1.
    rewrite G1 by (try apply repeat_length; intros; lia). cbn [rbind].
    pose proof (neg_loop la (fun k => k - na) nf (na + nf) [] (repeat n0 nf) na) as G2. cbn [app length] in G2.
    rewrite G2 by (try apply repeat_length; intros; lia). cbn [rbind].
    unfold tabulate. rewrite !map_length, !seq_length, !Nat.eqb_refl. cbn [rbind]. f_equal. f_equal.
    clear. generalize nf. clear nf. intros nf. rewrite <- (Nat.add_0_r na) at 1. generalize 0. induction nf as [|nf IH]; intros k; cbn; [reflexivity|]. f_equal.
    rewrite <- Nat.add_succ_r. apply IH.
  Qed.

  (** Every callback only evaluates and combines. *)
  Lemma update_evolves q0 p (x : ptr T) f r : evolves q0 (nlp_base p) -> update p x f = Ok (Some r) -> evolves q0 (nlp_base r).
  Proof.
    intros E U. unfold update in U. destruct (f =? 1)%Z; [|injection U as <-; exact E]. destruct x as [x|]; [|discriminate].
    destruct (raw_slice x _) as [v|]; [|discriminate]. cbn [rbind] in U. unfold nlp_evaluate in U.
    destruct (minlp_evaluate (nlp_base p) v) as [q|] eqn:Eq; [|discriminate]. cbn [rbind] in U. injection U as <-. eapply ev_eval; eassumption.
  Qed.
  Lemma callback_evolves q0 p c p' r : evolves q0 (nlp_base p) -> callback p c = Ok (p', r) -> evolves q0 (nlp_base p').
  Proof.
    intros E C. destruct c as [n x new_x obj|n x new_x g|n x new_x m g|n x new_x m k ir jc vals|n x new_x fac m la nl k ir jc vals];
      cbn [callback] in C; unfold eval_f_cb, eval_grad_f_cb, eval_g_cb, eval_jac_g_cb, eval_h_cb in C;
      repeat (first
        [ match type of C with
          | Ok (_, _) = Ok (_, _) => injection C as <- _
          | Panic _ = _ => discriminate C
          | rbind (update _ _ _) _ = _ => let E0 := fresh in destruct (update _ _ _) as [[?|]|] eqn:E0; cbn [rbind] in C; try apply (update_evolves q0) in E0
          | rbind (if ?b then _ else _) _ = _ => destruct b
          | rbind (match ?x with Some _ => _ | None => _ end) _ = _ => destruct x
          | rbind (rbind _ _) _ = _ => rewrite rbind_assoc in C
          | rbind (nlp_combine_h ?q ?nu) _ = _ => let E0 := fresh in destruct (nlp_combine_h q nu) eqn:E0
          | rbind ?m _ = _ => destruct m
          | (if ?b then _ else _) = _ => destruct b
          | (match ?x with Some _ => _ | None => _ end) = _ => destruct x
          | (let '(_, _) := ?x in _) = _ => destruct x
          end; try (cbn [rbind negb] in C)
        | progress cbn zeta beta iota in C]); try discriminate; try assumption;
      try (match goal with E0 : nlp_combine_h _ _ = Ok _ |- _ => unfold nlp_combine_h in E0 end;
           match goal with E0 : rbind (combine_h ?a ?b) _ = Ok _ |- _ => destruct (combine_h a b) eqn:?; [|discriminate E0]; cbn [rbind] in E0; injection E0 as <- end;
           eapply ev_comb; eassumption).
  Qed.
  Lemma plays_evolves q0 s p p' cs code x la pi mu : plays s p p' cs code x la pi mu -> evolves q0 (nlp_base p) -> evolves q0 (nlp_base p').
  Proof. induction 1 as [|c k p r p1 p' cs code x la pi mu C Hp IH]; intros E; [exact E|]. apply IH. eapply callback_evolves; eassumption. Qed.

  Lemma lawful_plays q0 d0 : nlp_sane q0 -> forall s last lam p, lawful q0 last s -> inv q0 d0 last lam p ->
    exists p' cs code x la pi mu, plays s p p' cs code x la pi mu /\ Forall (well_called q0) cs /\ honours last cs.
  Proof.
    intros Hs. induction s as [code x la pi mu|c k IH]; intros last lam p Hl Hi.
    - exists p, [], code, x, la, pi, mu. split; [constructor|]. split; constructor.
    - cbn [lawful] in Hl. destruct Hl as [Hw Hl].
      assert (Hc : match point_of c with Some x => last = Some x \/ flag_of c = true | None => True end) by (destruct (point_of c); tauto).
      destruct (callback_ok q0 d0 last lam p c Hs Hi Hw Hc) as (p1 & r & E & I1 & _).
      assert (Hl1 : lawful q0 (next_point last c) (k r)) by (unfold next_point; destruct (point_of c); apply Hl).
      destruct (IH r _ _ p1 Hl1 I1) as (p' & cs & code & x & la & pi & mu & P & W & Ho).
      exists p', (c :: cs), code, x, la, pi, mu. split; [econstructor; eassumption|]. split; [constructor; assumption|].
      cbn [honours]. unfold next_point in Ho. destruct (point_of c); [split; [exact Hc|exact Ho]|exact Ho].
  Qed.

  Definition small (n : nat) : Prop := (Z.of_nat n <= 2147483647)%Z.
  Definition create_of (p : nlp T) : create_args T :=
    let b := nlp_base p in
    mk_create (Z.of_nat (m_nx b)) (m_l b) (m_u b) (Z.of_nat (m_na b + m_nf b)) (repeat n0 (m_na b + m_nf b)) (repeat n0 (m_na b + m_nf b))
              (Z.of_nat (nnzj b)) (Z.of_nat (nnzh b)).
  Record ready (q0 : minlp T) (p : nlp T) : Prop := {
    rd_sane : nlp_sane q0; rd_ev : evolves q0 (nlp_base p); rd_j : small (nnzj q0); rd_h : small (nnzh q0) }.
  Lemma head_ok q0 p : ready q0 p -> forall lib ps,
    ipopt_solve_nlp lib ps p =
    if lib_create lib (create_of p) then
      match get_param ps "print_level" with
      | Some (IntParam lvl) =>
        if lib_int lib "print_level" lvl then
          match get_param ps "sb" with
          | Some (StrParam sb) =>
            rbind (if has_nul sb then Panic PUnwrap else Ok tt) (fun _ =>
            if lib_str lib "sb" sb then
              rbind (match m_x0 (nlp_base p) with Some x0 => copy_from_slice (repeat n0 (m_nx (nlp_base p))) x0 | None => Ok (repeat n0 (m_nx (nlp_base p))) end) (fun x =>
              rbind (run_play (lib_solve lib (create_of p) lvl sb x) p) (fun r =>
              rbind (ipopt_sol (fst r) (snd r)) (fun s =>
              Ok (fst r, false, inl (ipopt_status (an_code (snd r)), s)))))
            else Ok (p, true, inr "unable to set parameter sb"%string))
          | _ => Ok (p, true, inr "unable to get parameter sb"%string)
          end
        else Ok (p, true, inr "unable to set parameter print_level"%string)
      | _ => Ok (p, true, inr "unable to get parameter print_level"%string)
      end
    else Ok (p, false, inr "failed to create ipopt problem"%string).
  Proof.
    intros [Hs He Sj Sh] lib ps. pose proof (fixed_ok _ _ Hs He) as Fx. destruct (ns_small _ Hs) as [Sx Sm].
    assert (En : m_nx (nlp_base p) = m_nx q0) by (unfold m_nx; rewrite (fx_a _ _ Fx); reflexivity).
    assert (Ea : m_na (nlp_base p) = m_na q0) by (unfold m_na; rewrite (fx_b _ _ Fx); reflexivity).
    assert (Ej : coo_nnz (m_a (nlp_base p)) + coo_nnz (b_j (m_bufs (nlp_base p))) = nnzj q0) by (unfold nnzj; rewrite (fx_a _ _ Fx), (same_nnz _ _ (fx_j _ _ Fx)); reflexivity).
    assert (Eh : coo_nnz (b_hphi (m_bufs (nlp_base p))) + coo_nnz (m_hcomb (nlp_base p)) = nnzh q0) by (unfold nnzh; rewrite (same_nnz _ _ (fx_hphi _ _ Fx)), (fx_nhc _ _ Fx); reflexivity).
    assert (Eh' : nnzh (nlp_base p) = nnzh q0).
    { unfold nnzh. rewrite (same_nnz _ _ (fx_hphi _ _ Fx)). f_equal. destruct (h_shape q0 Hs _ He) as [_ S].
      clear -S. unfold list_sum. induction S as [|m m' h h' Hm Hl IH]; [reflexivity|]. cbn. rewrite (same_nnz _ _ Hm), IH. reflexivity. }
    unfold ipopt_solve_nlp. rewrite (to_i32_ok (m_nx (nlp_base p))) by (rewrite En; exact Sx). cbn [rbind].
    rewrite (to_i32_ok (m_na (nlp_base p) + _)) by (rewrite Ea, (fx_nf _ _ Fx); exact Sm). cbn [rbind].
    rewrite Ej, Eh, (to_i32_ok (nnzj q0)), (to_i32_ok (nnzh q0)) by assumption. cbn [rbind].
    unfold create_of. assert (Ej' : nnzj (nlp_base p) = nnzj q0) by exact Ej. rewrite Eh', Ej'. reflexivity.
  Qed.

  (** The starting point passed to the library. *)
  Definition starts (p : nlp T) (x : list T) : Prop :=
    match m_x0 (nlp_base p) with Some x0 => x = x0 /\ length x0 = m_nx (nlp_base p) | None => x = repeat n0 (m_nx (nlp_base p)) end.

  Lemma nul_true sb : has_nul sb = true <-> contains_nul sb.
  Proof.
    unfold contains_nul. induction sb as [|c sb IH]; cbn [has_nul list_ascii_of_string In]; [split; [discriminate|tauto]|].
    rewrite Bool.orb_true_iff, Ascii.eqb_eq, IH. split; intros [E|E]; auto; left; rewrite E; reflexivity.
  Qed.
  Lemma nul_false sb : has_nul sb = false <-> ~ contains_nul sb.
  Proof. rewrite <- nul_true. destruct (has_nul sb); split; intros E; [discriminate|destruct (E eq_refl)|intros F; discriminate F|reflexivity]. Qed.

  Theorem C51_solution (q0 : minlp T) p lib ps lvl sb x00 p' cs code x la pi mu :
    ready q0 p -> starts p x00 ->
    get_param ps "print_level" = Some (IntParam lvl) -> get_param ps "sb" = Some (StrParam sb) -> ~ contains_nul sb ->
    lib_create lib (create_of p) = true -> lib_int lib "print_level" lvl = true -> lib_str lib "sb" sb = true ->
    plays (lib_solve lib (create_of p) lvl sb x00) p p' cs code x la pi mu ->
    exists st, ipopt_solve_nlp lib ps p =
      Ok (p', false, inl (st, mk_sol (tabulate (m_nx q0) x) (tabulate (m_na q0) (fun k => nneg (la k)))
                                     (tabulate (m_nf q0) (fun k => nneg (la (m_na q0 + k)))) (tabulate (m_nx q0) mu) (tabulate (m_nx q0) pi))) /\
      (st = Solved <-> code = 0%Z \/ code = 1%Z) /\ (st = Infeasible <-> code = 2%Z) /\ (st = Error <-> ~ In code [0; 1; 2]%Z).
  Proof.
    intros Hr Hx G1 G2 Hn L1 L2 L3 Hp. apply nul_false in Hn. rewrite (head_ok q0 p Hr), L1, G1, L2, G2, Hn. cbn [rbind]. rewrite L3.
    assert (Ex : match m_x0 (nlp_base p) with Some x0 => copy_from_slice (repeat n0 (m_nx (nlp_base p))) x0 | None => Ok (repeat n0 (m_nx (nlp_base p))) end = Ok x00).
    { unfold starts in Hx. destruct (m_x0 (nlp_base p)) as [x0|]; [|subst; reflexivity]. destruct Hx as [-> Hx].
      unfold copy_from_slice, rassert. rewrite repeat_length, Hx, Nat.eqb_refl. reflexivity. }
    rewrite Ex. cbn [rbind]. rewrite (plays_run _ _ _ _ _ _ _ _ _ Hp). cbn [rbind fst snd]. rewrite sol_ok. cbn [rbind an_code].
    destruct Hr as [Hs He _ _]. pose proof (plays_evolves q0 _ _ _ _ _ _ _ _ _ Hp He) as He'. pose proof (fixed_ok _ _ Hs He') as Fx.
    assert (En : m_nx (nlp_base p') = m_nx q0) by (unfold m_nx; rewrite (fx_a _ _ Fx); reflexivity).
    assert (Ea : m_na (nlp_base p') = m_na q0) by (unfold m_na; rewrite (fx_b _ _ Fx); reflexivity).
    rewrite En, Ea, (fx_nf _ _ Fx). exists (ipopt_status code). split; [reflexivity|]. unfold ipopt_status.
    destruct (Z.eqb_spec code 0), (Z.eqb_spec code 1), (Z.eqb_spec code 2); subst; cbn;
      repeat split; intros; try discriminate; try lia; auto; exfalso; tauto.
  Qed.
  (** A library that keeps its contract gets an answer to every request, and the solve
      returns. *)
  Theorem C51_returns (q0 : minlp T) p lib ps lvl sb x00 :
    ready q0 p -> starts p x00 ->
    get_param ps "print_level" = Some (IntParam lvl) -> get_param ps "sb" = Some (StrParam sb) -> ~ contains_nul sb ->
    lib_create lib (create_of p) = true -> lib_int lib "print_level" lvl = true -> lib_str lib "sb" sb = true ->
    lawful q0 None (lib_solve lib (create_of p) lvl sb x00) ->
    exists p' cs code x la pi mu st s, plays (lib_solve lib (create_of p) lvl sb x00) p p' cs code x la pi mu /\
      Forall (well_called q0) cs /\ honours None cs /\ evolves q0 (nlp_base p') /\
      ipopt_solve_nlp lib ps p = Ok (p', false, inl (st, s)).
  Proof.
    intros Hr Hx G1 G2 Hn L1 L2 L3 Hl.
    destruct (lawful_plays q0 _ (rd_sane _ _ Hr) _ None None p Hl (start_inv q0 p (rd_ev _ _ Hr))) as (p' & cs & code & x & la & pi & mu & Hp & Hw & Ho).
    destruct (C51_solution q0 p lib ps lvl sb x00 p' cs code x la pi mu Hr Hx G1 G2 Hn L1 L2 L3 Hp) as (st & E & _).
    do 9 eexists. split; [exact Hp|]. split; [exact Hw|]. split; [exact Ho|]. split; [|exact E]. eapply plays_evolves; [exact Hp|apply (rd_ev _ _ Hr)].
  Qed.

  (** Errors leave the problem as it was; those found after the creation of the library's
      object leave that object allocated (the middle component). *)
  Theorem C51_errors (q0 : minlp T) p lib ps : ready q0 p ->
    (lib_create lib (create_of p) = false -> ipopt_solve_nlp lib ps p = Ok (p, false, inr "failed to create ipopt problem"%string)) /\
    (lib_create lib (create_of p) = true ->
     ((forall lvl, get_param ps "print_level" <> Some (IntParam lvl)) -> ipopt_solve_nlp lib ps p = Ok (p, true, inr "unable to get parameter print_level"%string)) /\
     (forall lvl, get_param ps "print_level" = Some (IntParam lvl) ->
      (lib_int lib "print_level" lvl = false -> ipopt_solve_nlp lib ps p = Ok (p, true, inr "unable to set parameter print_level"%string)) /\
      (lib_int lib "print_level" lvl = true ->
       ((forall sb, get_param ps "sb" <> Some (StrParam sb)) -> ipopt_solve_nlp lib ps p = Ok (p, true, inr "unable to get parameter sb"%string)) /\
       (forall sb, get_param ps "sb" = Some (StrParam sb) ->
        (contains_nul sb -> ipopt_solve_nlp lib ps p = Panic PUnwrap) /\
        (~ contains_nul sb -> lib_str lib "sb" sb = false -> ipopt_solve_nlp lib ps p = Ok (p, true, inr "unable to set parameter sb"%string)))))).
  Proof.
    intros Hr. rewrite (head_ok q0 p Hr).
    split; [intros ->; reflexivity|]. intros ->. split.
    - intros G. destruct (get_param ps "print_level") as [[lvl|f|s]|]; try reflexivity. destruct (G lvl eq_refl).
    - intros lvl ->. split; [intros ->; reflexivity|]. intros ->. split.
      + intros G. destruct (get_param ps "sb") as [[lvl'|f|s]|]; try reflexivity. destruct (G s eq_refl).
      + intros sb ->. split; intros Hn; [apply nul_true in Hn; rewrite Hn; reflexivity|]. apply nul_false in Hn. intros ->. rewrite Hn. reflexivity.
  Qed.
  (** The object is freed exactly when the library was asked to solve or never created it. *)
  Theorem C51_leak (lib : library T) ps p p' leak r : ipopt_solve_nlp lib ps p = Ok (p', leak, r) ->
    leak = true <-> exists msg, r = inr msg /\ msg <> "failed to create ipopt problem"%string.
  Proof.
    unfold ipopt_solve_nlp. intros E.
    repeat (match type of E with
            | rbind ?m _ = _ => destruct m; [|discriminate]
            | (if ?b then _ else _) = _ => destruct b
            | (match ?x with Some _ => _ | None => _ end) = _ => destruct x
            | (match ?x with IntParam _ => _ | _ => _ end) = _ => destruct x
            end; cbn [rbind] in E);
      injection E as <- <- <-; split; intros G; try discriminate; try reflexivity;
      try (eexists; split; [reflexivity|discriminate]); destruct G as (msg & Em & Hm); try discriminate Em; injection Em as <-; congruence.
  Qed.
  (** The classes of problems. *)
  Theorem C51_classes (lib : library T) ps :
    (forall q, ipopt_solve lib ps (PMilp q) = Ok (PMilp q, false, inr "problem type not supported"%string)) /\
    (forall q, ipopt_solve lib ps (PMinlp q) = Ok (PMinlp q, false, inr "problem type not supported"%string)) /\
    (forall q q' leak r, ipopt_solve_nlp lib ps q = Ok (q', leak, r) -> ipopt_solve lib ps (PNlp q) = Ok (PNlp q', leak, r)) /\
    (forall q q' leak r, ipopt_solve_nlp lib ps (lp_nlp q) = Ok (q', leak, r) ->
       ipopt_solve lib ps (PLp q) = Ok (PLp (mk_lp (lp_milp q) q'), leak, r)).
  Proof.
    split; [reflexivity|]. split; [reflexivity|]. split.
    - intros q q' leak r E. unfold ipopt_solve. rewrite E. reflexivity.
    - intros q q' leak r E. unfold ipopt_solve. rewrite E. reflexivity.
  Qed.
End Solve.

(** ** C56 Ill-formed calls are refused, and only these *)
Section Refuse.
  Context {T : Type} `{Num T}.
  Lemma count_spec z k : is_count z k = true <-> z = Z.of_nat k.
  Proof.
    unfold is_count, to_usize. destruct (Z.ltb_spec z 0).
    - split; [discriminate|]. intros ->. lia.
    - rewrite Nat.eqb_eq. split; [intros <-; rewrite Z2Nat.id; lia|intros ->; apply Nat2Z.id].
  Qed.
  Lemma count_false z k : is_count z k = false <-> z <> Z.of_nat k.
  Proof. rewrite <- count_spec. destruct (is_count z k); split; intros E; [discriminate|destruct (E eq_refl)|intros F; discriminate F|reflexivity]. Qed.
  Lemma some_or {A} (p : ptr A) : present p <-> exists l, p = Some l.
  Proof. unfold present. destruct p; split; intros E; [eauto|discriminate|congruence|destruct E; discriminate]. Qed.

  Variable q0 : minlp T.
  Hypothesis Hs : nlp_sane q0.
  Lemma sizes p : evolves q0 (nlp_base p) ->
    m_nx (nlp_base p) = m_nx q0 /\ m_na (nlp_base p) + m_nf (nlp_base p) = m_na q0 + m_nf q0 /\
    coo_nnz (m_a (nlp_base p)) + coo_nnz (b_j (m_bufs (nlp_base p))) = nnzj q0 /\
    coo_nnz (b_hphi (m_bufs (nlp_base p))) + coo_nnz (m_hcomb (nlp_base p)) = nnzh q0.
  Proof.
    intros He. pose proof (fixed_ok _ _ Hs He) as Fx. unfold m_nx, m_na, nnzj, nnzh.
    rewrite (fx_a _ _ Fx), (fx_b _ _ Fx), (fx_nf _ _ Fx), (same_nnz _ _ (fx_j _ _ Fx)), (same_nnz _ _ (fx_hphi _ _ Fx)), (fx_nhc _ _ Fx). auto.
  Qed.
  Lemma present_some {A} (l : list A) : present (Some l).
  Proof. discriminate. Qed.
  Lemma present_none {A} : ~ present (@None (list A)).
  Proof. intros E. apply E. reflexivity. Qed.
  Lemma update_cases (p : nlp T) x f r : update p x f = Ok r ->
    (r = None /\ f = 1%Z /\ x = None) \/ (exists q, r = Some q /\ (f = 1%Z -> present x)).
  Proof.
    unfold update. destruct (Z.eqb_spec f 1) as [->|Hf]; intros E.
    - destruct x as [x|]; [|injection E as <-; left; auto]. destruct (raw_slice x _) as [v|]; [|discriminate]. cbn [rbind] in E.
      destruct (nlp_evaluate p v) as [q|]; [|discriminate]. cbn [rbind] in E. injection E as <-. right. exists q. split; [reflexivity|intros _; discriminate].
    - injection E as <-. right. exists p. split; [reflexivity|]. intros E. destruct (Hf E).
  Qed.
  Ltac refuse := split; [split; [discriminate|intros G; exfalso; cbn [accepted] in G; unfold present in G; intuition congruence]|reflexivity].
  Ltac accept := split; [split; [intros _; cbn [accepted]; unfold present in *; intuition congruence|reflexivity]|discriminate].
  (** A callback says that it succeeded exactly when the call is acceptable; when it
      refuses one, it has written nothing. *)
  Theorem C56_iff p c p' r : evolves q0 (nlp_base p) -> callback p c = Ok (p', r) ->
    (rp_ok r = true <-> accepted q0 c) /\ (rp_ok r = false -> r = untouched c).
  Proof.
    intros He C. destruct (sizes p He) as (E1 & E2 & E3 & E4).
    destruct c as [n x new_x obj|n x new_x g|n x new_x m g|n x new_x m k ir jc vals|n x new_x fac m la nl k ir jc vals];
      cbn [callback] in C; unfold eval_f_cb, eval_grad_f_cb, eval_g_cb, eval_jac_g_cb, eval_h_cb in C;
      rewrite ?E1, ?E2, ?E3, ?E4 in C.
    - destruct x as [x|]; [|injection C as <- <-; refuse]. destruct obj as [mem|]; [|injection C as <- <-; refuse].
      destruct (is_count n _) eqn:En; [apply count_spec in En|apply count_false in En; injection C as <- <-; refuse].
      destruct (update p (Some x) new_x) as [r0|] eqn:U; [|discriminate]. cbn [rbind] in C.
      destruct (update_cases _ _ _ _ U) as [(_ & _ & Hx)|(q & -> & Hx)]; [discriminate|].
      destruct (store_from mem 0 _); [|discriminate]. cbn [rbind] in C. injection C as <- <-. accept.
    - destruct x as [x|]; [|injection C as <- <-; refuse]. destruct g as [mem|]; [|injection C as <- <-; refuse].
      destruct (is_count n _) eqn:En; [apply count_spec in En|apply count_false in En; injection C as <- <-; refuse].
      destruct (update p (Some x) new_x) as [r0|] eqn:U; [|discriminate]. cbn [rbind] in C.
      destruct (update_cases _ _ _ _ U) as [(_ & _ & Hx)|(q & -> & Hx)]; [discriminate|].
      destruct (mem_copy _ mem 0 _); [|discriminate]. cbn [rbind] in C. injection C as <- <-. accept.
    - destruct x as [x|]; [|injection C as <- <-; refuse]. destruct g as [mem|]; [|injection C as <- <-; refuse].
      destruct (is_count n _) eqn:En; [apply count_spec in En|apply count_false in En; injection C as <- <-; refuse].
      destruct (is_count m _) eqn:Em; [apply count_spec in Em|apply count_false in Em; injection C as <- <-; refuse].
      destruct (raw_slice x _) as [xx|]; [|discriminate]. cbn [rbind] in C.
      destruct (update p (Some x) new_x) as [r0|] eqn:U; [|discriminate]. cbn [rbind] in C.
      destruct (update_cases _ _ _ _ U) as [(_ & _ & Hx)|(q & -> & Hx)]; [discriminate|].
      destruct (coo_mul _ xx); [|discriminate]. cbn [rbind] in C. destruct (rassert _); [|discriminate]. cbn [rbind] in C.
      destruct (mem_copy _ mem 0 _) as [mem1|]; [|discriminate]. cbn [rbind] in C. destruct (mem_copy _ mem1 _ _); [|discriminate]. cbn [rbind] in C.
      injection C as <- <-. accept.
    - destruct (is_count n _) eqn:En; [apply count_spec in En|apply count_false in En; injection C as <- <-; refuse].
      destruct (is_count m _) eqn:Em; [apply count_spec in Em|apply count_false in Em; injection C as <- <-; refuse].
      destruct (is_count k _) eqn:Ek; [apply count_spec in Ek|apply count_false in Ek; injection C as <- <-; refuse]. cbn [andb] in C.
      destruct vals as [mem|].
      + destruct (update p x new_x) as [r0|] eqn:U; [|discriminate]. cbn [rbind] in C.
        destruct (update_cases _ _ _ _ U) as [(-> & Hf & Hx)|(q & -> & Hx)]; [injection C as <- <-; subst; refuse|].
        destruct (store_values _ (mem, 0) _) as [st1|]; [|discriminate]. cbn [rbind] in C.
        destruct (store_values _ st1 _) as [st2|]; [|discriminate]. cbn [rbind] in C. injection C as <- <-. accept.
      + destruct ir as [ir|]; [|injection C as <- <-; refuse]. destruct jc as [jc|]; [|injection C as <- <-; refuse].
        destruct (store_pattern (ir, jc, 0) _) as [st1|]; [|discriminate]. cbn [rbind] in C.
        destruct (store_pattern st1 _) as [st2|]; [|discriminate]. cbn [rbind] in C. injection C as <- <-. accept.
    - destruct (is_count n _) eqn:En; [apply count_spec in En|apply count_false in En; injection C as <- <-; refuse].
      destruct (is_count m _) eqn:Em; [apply count_spec in Em|apply count_false in Em; injection C as <- <-; refuse].
      destruct (is_count k _) eqn:Ek; [apply count_spec in Ek|apply count_false in Ek; injection C as <- <-; refuse]. cbn [andb] in C.
      destruct vals as [mem|].
      + destruct (update p x new_x) as [r0|] eqn:U; [|discriminate]. cbn [rbind] in C.
        destruct (update_cases _ _ _ _ U) as [(-> & Hf & Hx)|(q & -> & Hx)]; [injection C as <- <-; subst; refuse|].
        destruct (Z.eqb_spec nl 1) as [->|Hl].
        * destruct la as [la|]; [|cbn [rbind negb] in C; injection C as <- <-; refuse].
          destruct (raw_slice _ _) as [nu|]; [|discriminate]. cbn [rbind] in C. destruct (nlp_combine_h q nu) as [q'|]; [|discriminate]. cbn [rbind negb] in C.
          rewrite Bool.orb_true_r in C.
          destruct (store_values _ (mem, 0) _) as [st1|]; [|discriminate]. cbn [rbind] in C.
          destruct (store_values _ st1 _) as [st2|]; [|discriminate]. cbn [rbind] in C. injection C as <- <-. accept.
        * cbn [rbind negb] in C. destruct ((new_x =? 1)%Z || false).
          { destruct (store_values _ (mem, 0) _) as [st1|]; [|discriminate]. cbn [rbind] in C.
            destruct (store_values _ st1 _) as [st2|]; [|discriminate]. cbn [rbind] in C. injection C as <- <-. accept. }
          injection C as <- <-. accept.
      + destruct ir as [ir|]; [|injection C as <- <-; refuse]. destruct jc as [jc|]; [|injection C as <- <-; refuse].
        destruct (store_pattern (ir, jc, 0) _) as [st1|]; [|discriminate]. cbn [rbind] in C.
        destruct (store_pattern st1 _) as [st2|]; [|discriminate]. cbn [rbind] in C. injection C as <- <-. accept.
  Qed.
  (** Such a call is refused, without a fault, whatever else is passed. *)
  Theorem C56_refuses p c : evolves q0 (nlp_base p) -> point_memory q0 c -> ~ accepted q0 c ->
    exists p', callback p c = Ok (p', untouched c) /\ evolves q0 (nlp_base p').
  Proof.
    intros He Hx Ha.
    assert (G : exists p' r, callback p c = Ok (p', r)).
    { destruct (sizes p He) as (E1 & E2 & E3 & E4).
      destruct c as [n x new_x obj|n x new_x g|n x new_x m g|n x new_x m k ir jc vals|n x new_x fac m la nl k ir jc vals];
        cbn [callback accepted] in *; unfold eval_f_cb, eval_grad_f_cb, eval_g_cb, eval_jac_g_cb, eval_h_cb;
        rewrite ?E1, ?E2, ?E3, ?E4.
      - destruct x as [x|]; [|do 2 eexists; reflexivity]. destruct obj as [mem|]; [|do 2 eexists; reflexivity]. destruct (is_count n _) eqn:En; [|do 2 eexists; reflexivity].
        apply count_spec in En. destruct Ha. repeat split; [exact En|discriminate|discriminate].
      - destruct x as [x|]; [|do 2 eexists; reflexivity]. destruct g as [mem|]; [|do 2 eexists; reflexivity]. destruct (is_count n _) eqn:En; [|do 2 eexists; reflexivity].
        apply count_spec in En. destruct Ha. repeat split; [exact En|discriminate|discriminate].
      - destruct x as [x|]; [|do 2 eexists; reflexivity]. destruct g as [mem|]; [|do 2 eexists; reflexivity]. destruct (is_count n _) eqn:En; [|do 2 eexists; reflexivity]. destruct (is_count m _) eqn:Em; [|do 2 eexists; reflexivity].
        apply count_spec in En. apply count_spec in Em. destruct Ha. repeat split; [exact En|exact Em|discriminate|discriminate].
      - destruct (is_count n _) eqn:En; [|do 2 eexists; reflexivity]. destruct (is_count m _) eqn:Em; [|do 2 eexists; reflexivity]. destruct (is_count k _) eqn:Ek; [|do 2 eexists; reflexivity]. cbn [andb].
        apply count_spec in En. apply count_spec in Em. apply count_spec in Ek. destruct vals as [mem|].
        + destruct x as [x|]; [destruct Ha; repeat split; auto; discriminate|]. unfold update. destruct (Z.eqb_spec new_x 1) as [->|Hf]; [cbn [rbind]; eauto|].
          destruct Ha. repeat split; auto. intros F. destruct (Hf F).
        + destruct ir as [ir|]; [|do 2 eexists; reflexivity]. destruct jc as [jc|]; [|do 2 eexists; reflexivity]. destruct Ha. repeat split; auto; discriminate.
      - destruct (is_count n _) eqn:En; [|do 2 eexists; reflexivity]. destruct (is_count m _) eqn:Em; [|do 2 eexists; reflexivity]. destruct (is_count k _) eqn:Ek; [|do 2 eexists; reflexivity]. cbn [andb].
        apply count_spec in En. apply count_spec in Em. apply count_spec in Ek. destruct vals as [mem|].
        + assert (U : update p x new_x = Ok None /\ new_x = 1%Z /\ x = None \/ exists q, update p x new_x = Ok (Some q) /\ (new_x = 1%Z -> present x)).
          { unfold update. destruct (Z.eqb_spec new_x 1) as [->|Hf]; [|right; exists p; split; [reflexivity|intros F; destruct (Hf F)]].
            destruct x as [x|]; [|left; auto]. right. cbn [point_memory] in Hx. rewrite E1, raw_slice_all by exact Hx. cbn [rbind].
            destruct (ns_repeat _ Hs _ x He Hx) as (q' & q0' & Eq & _). unfold nlp_evaluate. rewrite Eq. cbn [rbind]. eexists. split; [reflexivity|intros _; discriminate]. }
          destruct U as [(-> & _ & _)|(q & -> & Hp)]; [cbn [rbind]; eauto|]. cbn [rbind].
          destruct (Z.eqb_spec nl 1) as [->|Hl].
          * destruct la as [la|]; [destruct Ha; repeat split; auto; discriminate|]. cbn [rbind negb]. do 2 eexists; reflexivity.
          * destruct Ha. repeat split; auto. intros F. destruct (Hl F).
        + destruct ir as [ir|]; [|do 2 eexists; reflexivity]. destruct jc as [jc|]; [|do 2 eexists; reflexivity]. destruct Ha. repeat split; auto; discriminate. }
    destruct G as (p' & r & C). exists p'. destruct (C56_iff p c p' r He C) as [H1 H2].
    split; [|eapply callback_evolves; eassumption]. rewrite C. destruct (rp_ok r) eqn:Er; [destruct (Ha (proj1 H1 eq_refl))|]. rewrite H2 by reflexivity. reflexivity.
  Qed.
End Refuse.

(** ** The problems built from models satisfy the hypotheses *)
Section Models.
  Context {T : Type} `{Num T}.
  Lemma zip_eval_length vs (d : list T) : forall es, length (zip_eval vs d es) = length d.
  Proof. induction d as [|x d IH]; intros [|e es]; cbn; auto. Qed.
  Lemma vset_length {A} (l : list A) : forall i v l', vset l i v = Ok l' -> length l' = length l.
  Proof.
    intros i v l' E. unfold vset in E. destruct (i <? length l); [|discriminate]. injection E as <-.
    clear. revert i. induction l as [|a l IH]; intros [|i]; cbn; auto.
  Qed.
  Lemma model_eval_keeps v2i phi gi (g hphi f j : list (node T)) h : keeps_shape (model_eval v2i phi gi g hphi f j h).
  Proof.
    intros b x b' E. unfold model_eval in E.
    match type of E with rbind ?r _ = _ => destruct r as [vs|] eqn:E1; [|discriminate] end. cbn [rbind] in E.
    match type of E with rbind ?r _ = _ => destruct r as [gv|] eqn:E2; [|discriminate] end. cbn [rbind] in E. injection E as <-.
    unfold same_shape. cbn [b_gphi b_f b_hphi b_j b_h].
    split; [|split; [apply zip_eval_length|split; [|split]]].
    - clear -E2. revert E2. generalize (b_gphi b), (combine gi g). intros l es. revert l. induction es as [|e es IH]; intros l E2; cbn [foldR] in E2; [injection E2 as <-; reflexivity|].
      destruct (vset l (fst e) _) as [l1|] eqn:E1; [|discriminate]. cbn [rbind] in E2. rewrite (IH _ E2). eapply vset_length; eassumption.
    - repeat split. apply zip_eval_length.
    - repeat split. apply zip_eval_length.
    - generalize (b_h b). clear. induction h as [|hh h IH]; intros [|m ms]; try constructor; try (repeat split; fail).
      + clear. induction ms; constructor; [repeat split|assumption].
      + repeat split. cbn. apply zip_eval_length.
      + apply IH.
  Qed.
  Lemma mat_in_ok r c (m : coo T) : mat_in r c m -> coo_wf m /\ indices_ok m.
  Proof.
    intros (R1 & C1 & L1 & L2 & F1 & F2). split; [split; congruence|]. intros i j v Hin. rewrite R1, C1. rewrite Forall_forall in F1, F2.
    unfold entries in Hin. apply in_combine_l in Hin. split; [apply F1|apply F2]; [eapply in_combine_l|eapply in_combine_r]; exact Hin.
  Qed.
  Lemma made_sane hphi a b j h l u p x0 (ev : eval_fn T) q0 :
    q0 = made hphi a b j h l u p x0 ev ->
    keeps_shape ev -> repeatable q0 -> length b = coo_rows a -> length l = coo_cols a -> length u = coo_cols a -> length p = coo_cols a ->
    length h = coo_rows j ->
    mat_in (coo_rows a) (coo_cols a) a -> mat_in (coo_rows j) (coo_cols a) j -> mat_in (coo_cols a) (coo_cols a) hphi ->
    Forall (mat_in (coo_cols a) (coo_cols a)) h -> small (m_nx q0) -> small (m_na q0 + m_nf q0) -> nlp_sane q0.
  Proof.
    intros E Hk Hr Lb Ll Lu Lp Lh Ma Mj Mp Mh S1 S2. constructor; [|exact Hr|split; assumption].
    exists hphi, a, b, j, h, l, u, p, x0, ev.
    assert (Wh : Forall coo_wf h) by (eapply Forall_impl; [|exact Mh]; intros m0 Hm0; apply (mat_in_ok _ _ _ Hm0)).
    split.
    - rewrite E. apply minlp_new_ok; [exact Wh|]. unfold dims_ok. rewrite Forall_forall in Mh. destruct Mj as (R1 & C1 & _). destruct Mp as (R2 & C2 & _).
      repeat split; auto; apply (Mh _ H0).
    - split; [apply (mat_in_ok _ _ _ Mp)|]. split; [apply (mat_in_ok _ _ _ Ma)|]. split; [apply (mat_in_ok _ _ _ Mj)|]. split; [exact Wh|]. split; [exact Hk|].
      split; [apply (mat_in_ok _ _ _ Mp)|]. split; [apply (mat_in_ok _ _ _ Ma)|]. split; [apply (mat_in_ok _ _ _ Mj)|].
      eapply Forall_impl; [|exact Mh]; intros m0 Hm0; apply (mat_in_ok _ _ _ Hm0).
  Qed.
End Models.

(** The problem a model gives to Ipopt. *)
Definition for_ipopt {T} (p : problem T) : option (nlp T) :=
  match p with PNlp q => Some q | PLp q => Some (lp_nlp q) | _ => None end.
Theorem C49_models {T} `{Num T} `{HashOrd} (st : mstate T) m sp k' q :
  hist any_op st -> In m (st_models st) -> std_problem m (st_k st) = Ok (sp, k') -> for_ipopt (sp_prob sp) = Some q ->
  small (m_nx (nlp_base q)) -> small (m_na (nlp_base q) + m_nf (nlp_base q)) -> nlp_sane (nlp_base q).
Proof.
  intros Hh Hm E Hq S1 S2.
  assert (Hr : forall q1 x, evolves (base_of (sp_prob sp)) q1 -> length x = m_nx (base_of (sp_prob sp)) ->
             exists q' q0', minlp_evaluate q1 x = Ok q' /\ minlp_evaluate (base_of (sp_prob sp)) x = Ok q0' /\ m_bufs q' = m_bufs q0').
  { intros q1 x Hq1 Hx. apply (C30_history st m sp k' q1 _ x Hh Hm E Hq1 (ev_start _) Hx). }
  destruct (hist_run st m sp k' Hh Hm E) as (S & obj & S' & eo & ke & ko & ps & ar & jr & uc & lc & Hi & Mi & HW & Em & R & Esp & _).
  destruct (C29_well_formed st m _ k' Hh Hm Em) as (sp' & E' & WF). rewrite E in E'. injection E' as <-.
  assert (Eb : nlp_base q = base_of (sp_prob sp)).
  { rewrite Esp in *. cbn [sp_prob] in *. unfold p_problem in *. destruct (p_linear obj (cat ps)), (no_int k' obj (cat ps)); try discriminate; injection Hq as <-; reflexivity. }
  rewrite Eb in *.
  destruct WF as [Wa Wj Whp Wh Whn Wg Wl Wu Wp _ _ _ _ _ _].
  assert (Ea : coo_rows (m_a (base_of (sp_prob sp))) = length (m_b (base_of (sp_prob sp))) /\ coo_cols (m_a (base_of (sp_prob sp))) = length (sp_var2index sp)) by (destruct Wa as (? & ? & _); auto).
  destruct Ea as [Ea1 Ea2]. rewrite <- Ea1 in Wa. rewrite <- Ea2 in *.
  assert (Ej : coo_rows (b_j (m_bufs (base_of (sp_prob sp)))) = length (b_f (m_bufs (base_of (sp_prob sp))))) by (destruct Wj as (? & _); auto).
  rewrite <- Ej in *. clear E Em Hi Mi HW R.
  assert (G : exists ev, keeps_shape ev /\ base_of (sp_prob sp) =
      made (b_hphi (m_bufs (base_of (sp_prob sp)))) (m_a (base_of (sp_prob sp))) (m_b (base_of (sp_prob sp))) (b_j (m_bufs (base_of (sp_prob sp))))
           (b_h (m_bufs (base_of (sp_prob sp)))) (m_l (base_of (sp_prob sp))) (m_u (base_of (sp_prob sp))) (m_p (base_of (sp_prob sp)))
           (m_x0 (base_of (sp_prob sp))) ev).
  { rewrite Esp. cbn [sp_prob]. unfold p_problem. destruct (p_linear obj (cat ps)), (no_int k' obj (cat ps));
      [exists (linear_eval (p_cvec k' obj (cat ps)))|exists (linear_eval (p_cvec k' obj (cat ps)))|exists (p_ev k' obj (cat ps))|exists (p_ev k' obj (cat ps))];
      (split; [first [apply linear_eval_keeps|apply model_eval_keeps]|reflexivity]). }
  destruct G as (ev & Hk & Emade). apply (made_sane _ _ _ _ _ _ _ _ _ ev _ Emade); auto.
Qed.

(** ** A problem: minimize [x^3] subject to [x = 0] (linear) and [x^3 = 0] (nonlinear),
    evaluated as the closures of the crate are, by writing values into the buffers. *)
Section Example.
  Context {T : Type} `{Num T}.
  Definition xm_one (v : T) : coo T := mk_coo 1 1 [0] [0] [v].
  Definition xm_fill (v : T) (m : coo T) : coo T := with_data m (map (fun _ => v) (coo_data m)).
  Definition xm_eval : eval_fn T := fun b x =>
    rbind (vget x 0) (fun v =>
    let cube := nmul v (nmul v v) in
    let square := nmul (nlit 3) (nmul v v) in
    let six := nmul (nlit 6) v in
    Ok (mk_bufs cube (map (fun _ => square) (b_gphi b)) (xm_fill six (b_hphi b)) (map (fun _ => cube) (b_f b)) (xm_fill square (b_j b))
                (map (xm_fill six) (b_h b)))).
  Definition xm_prob : minlp T :=
    made (xm_one n0) (xm_one n1) [n0] (xm_one n0) [xm_one n0] [n0] [n1] [false] None xm_eval.
  Lemma xm_keeps : keeps_shape xm_eval.
  Proof.
    intros b x b' E. unfold xm_eval in E. destruct (vget x 0); [|discriminate]. cbn [rbind] in E. injection E as <-.
    unfold same_shape. cbn [b_gphi b_f b_hphi b_j b_h]. rewrite !map_length. split; [reflexivity|]. split; [reflexivity|].
    split; [repeat split; apply map_length|]. split; [repeat split; apply map_length|].
    generalize (b_h b). clear. induction l; constructor; [repeat split; apply map_length|assumption].
  Qed.
  Lemma xm_repeatable : repeatable xm_prob.
  Proof.
    intros q x Hq Hx. cbn in Hx. destruct x as [|v [|]]; try discriminate.
    assert (W : Forall coo_wf [xm_one (n0 : T)]) by (repeat constructor).
    assert (D : dims_ok (xm_one (n0 : T)) (xm_one n1) [n0] (xm_one n0) [xm_one n0] [n0] [n1] [false]).
    { repeat split. all: intros; match goal with Hin : In _ _ |- _ => destruct Hin as [<-|[]]; reflexivity end. }
    destruct (evolves_inv _ _ _ _ _ _ _ _ _ _ _ xm_keeps W D Hq) as (bf & d & Hs & _ & ->).
    destruct Hs as (S1 & S2 & (a1 & a2 & a3 & a4 & a5) & (c1 & c2 & c3 & c4 & c5) & S5). destruct bf as [ph g hp f j h]. cbn in *.
    inversion S5 as [|? m ? ? (e1 & e2 & e3 & e4 & e5) Hn E1 E2]; subst. inversion Hn; subst.
    destruct g as [|g0 [|]]; try discriminate. destruct f as [|f0 [|]]; try discriminate.
    destruct hp as [r c ri ci [|d0 [|]]]; try discriminate. destruct j as [r' c' ri' ci' [|d1 [|]]]; try discriminate.
    destruct m as [r2 c2' ri2 ci2 [|d2 [|]]]; try discriminate. cbn in *. subst.
    eexists; eexists; split; [reflexivity|]. split; reflexivity.
  Qed.
  Lemma xm_sane : nlp_sane xm_prob.
  Proof.
    assert (M : forall v : T, mat_in 1 1 (xm_one v)) by (intros v; repeat split; repeat constructor).
    apply (made_sane _ _ _ _ _ _ _ _ _ _ _ eq_refl); try reflexivity; try apply M; [apply xm_keeps|apply xm_repeatable|repeat constructor; apply M| |]; unfold small; cbn; lia.
  Qed.
  Lemma xm_ready : ready xm_prob (mk_nlp xm_prob).
  Proof. constructor; [exact xm_sane|apply ev_start|unfold small; cbn; lia|unfold small; cbn; lia]. Qed.
End Example.

(** *** The reported Jacobian structure is wrong for it: the row of the nonlinear constraint
    is reported as row 0, that of the linear one, instead of row 1. *)
Theorem C49_structure_refuted {T} `{Num T} :
  nlp_sane (T := T) xm_prob /\
  exists c r, well_called xm_prob c /\ honours None [c] /\ callback (mk_nlp xm_prob) c = Ok (mk_nlp xm_prob, r) /\
    rp_irow r = Some [0; 0]%Z /\ jac_rows (T := T) xm_prob = [0; 1]%Z /\ rp_irow r <> Some (jac_rows (T := T) xm_prob).
Proof.
  split; [exact xm_sane|]. exists (EvalJacG 1 None 0 2 2 (Some [7; 7]%Z) (Some [7; 7]%Z) None). eexists.
  split; [cbn; repeat split; left; split; [reflexivity|]; split; eexists; split; reflexivity|].
  split; [exact I|]. split; [reflexivity|]. split; [reflexivity|]. split; [reflexivity|]. discriminate.
Qed.

#[local] Existing Instance NumF0.
(** The hypotheses of C49 and C50 are met by a sequence with all kinds of requests. *)
Definition xc_f (x : Z) (new : Z) : cb F := EvalF 1 (Some [flit x]) new (Some [flit 99]).
Definition xc_h (x new factor l0 l1 newl : Z) : cb F :=
  EvalH 1 (Some [flit x]) new (flit factor) 2 (Some [flit l0; flit l1]) newl 2 None None (Some [flit 99; flit 99]).
Definition xc_all : list (cb F) :=
  [EvalJacG 1 None 0 2 2 (Some [7; 7]%Z) (Some [7; 7]%Z) None;
   EvalH 1 None 0 (flit 1) 2 None 0 2 (Some [7; 7]%Z) (Some [7; 7]%Z) None;
   xc_f 2 1; EvalGradF 1 (Some [flit 2]) 0 (Some [flit 99]); EvalG 1 (Some [flit 2]) 0 2 (Some [flit 99; flit 99]);
   EvalJacG 1 (Some [flit 3]) 1 2 2 None None (Some [flit 99; flit 99]); xc_h 3 0 1 4 5 1].
Lemma xc_point x : point_ok (T := F) xm_prob (Some [x]).
Proof. eexists; split; reflexivity. Qed.
Lemma xc_legal : Forall (well_called (T := F) xm_prob) xc_all /\ honours None xc_all /\ honours_lambda None xc_all.
Proof.
  split; [|split; cbn; tauto]. unfold xc_all.
  repeat (apply Forall_cons; [cbn; repeat split; try apply xc_point; try (eexists; split; reflexivity)|]); [..|constructor];
    try (left; repeat split; eexists; split; reflexivity); right; repeat split; try apply xc_point; eexists; split; reflexivity.
Qed.
Example C49_example :
  match run_calls (mk_nlp xm_prob) xc_all with
  | Ok (_, rs) => map rp_out rs = [None; None; Some [flit 8]; Some [flit 12]; Some [flit 2; flit 8]; Some [flit 1; flit 27]; Some [flit 18; flit 90]]
  | Panic _ => False
  end.
Proof. vm_compute. reflexivity. Qed.

(** *** The Hessian is wrong for legal sequences: with a new point and the same
    multipliers the constraint part is that of the old point ... *)
Theorem C50_stale_refuted : exists cs p' rs i c r,
  nlp_sane (T := F) xm_prob /\ Forall (well_called xm_prob) cs /\ honours None cs /\ honours_lambda None cs /\
  run_calls (mk_nlp xm_prob) cs = Ok (p', rs) /\ nth_error cs i = Some c /\ nth_error rs i = Some r /\ ~ right_hessian xm_prob c r.
Proof.
  set (cs := [xc_h 2 1 1 0 1 1; xc_h 3 1 1 0 1 0]).
  assert (Hw : Forall (well_called (T := F) xm_prob) cs).
  { repeat (apply Forall_cons; [cbn; repeat split; right; repeat split; try apply xc_point; eexists; split; reflexivity|]). constructor. }
  destruct (C49_values xm_prob xm_sane (mk_nlp xm_prob) cs (ev_start _) Hw ltac:(cbn; auto)) as (p' & rs & E & _ & L & _).
  exists cs, p', rs, 1, (xc_h 3 1 1 0 1 0). destruct rs as [|r1 [|r2 [|]]]; try discriminate. exists r2.
  split; [apply xm_sane|]. split; [exact Hw|]. split; [cbn; auto|]. split; [cbn; auto|]. split; [exact E|]. split; [reflexivity|]. split; [reflexivity|].
  assert (C : match run_calls (mk_nlp (T := F) xm_prob) cs with Ok (_, [_; r]) => rp_out r = Some [flit 18; flit 12] | _ => False end) by (vm_compute; reflexivity).
  rewrite E in C. intros (bf & (q & Eq & <-) & _ & Er). rewrite Er in C. cbn [rp_out] in C.
  assert (V : match minlp_evaluate (T := F) xm_prob [flit 3] with Ok q => map snd (lagrangian (m_bufs q) (flit 1) [flit 1]) = [flit 18; flit 18] | _ => False end) by (vm_compute; reflexivity).
  rewrite Eq in V. cbn [xc_h skipn m_na xm_prob made m_b length] in C. rewrite V in C. vm_compute in C. discriminate.
Qed.
(** ... and with neither new nothing is written at all. *)
Theorem C50_unwritten_refuted : exists cs p' rs i c r,
  nlp_sane (T := F) xm_prob /\ Forall (well_called xm_prob) cs /\ honours None cs /\ honours_lambda None cs /\
  run_calls (mk_nlp xm_prob) cs = Ok (p', rs) /\ nth_error cs i = Some c /\ nth_error rs i = Some r /\ ~ right_hessian xm_prob c r.
Proof.
  set (cs := [xc_h 2 1 1 0 1 1; xc_f 3 1; xc_h 3 0 1 0 1 0]).
  assert (Hw : Forall (well_called (T := F) xm_prob) cs).
  { repeat (apply Forall_cons; [cbn; repeat split; try apply xc_point; try (eexists; split; reflexivity); right; repeat split; try apply xc_point; eexists; split; reflexivity|]). constructor. }
  destruct (C49_values xm_prob xm_sane (mk_nlp xm_prob) cs (ev_start _) Hw ltac:(cbn; auto)) as (p' & rs & E & _ & L & _).
  exists cs, p', rs, 2, (xc_h 3 0 1 0 1 0). destruct rs as [|r1 [|r2 [|r3 [|]]]]; try discriminate. exists r3.
  split; [apply xm_sane|]. split; [exact Hw|]. split; [cbn; auto|]. split; [cbn; auto|]. split; [exact E|]. split; [reflexivity|]. split; [reflexivity|].
  assert (C : match run_calls (mk_nlp (T := F) xm_prob) cs with Ok (_, [_; _; r]) => rp_out r = Some [flit 99; flit 99] | _ => False end) by (vm_compute; reflexivity).
  rewrite E in C. intros (bf & (q & Eq & <-) & _ & Er). rewrite Er in C. cbn [rp_out] in C.
  assert (V : match minlp_evaluate (T := F) xm_prob [flit 3] with Ok q => map snd (lagrangian (m_bufs q) (flit 1) [flit 1]) = [flit 18; flit 18] | _ => False end) by (vm_compute; reflexivity).
  rewrite Eq in V. cbn [xc_h skipn m_na xm_prob made m_b length] in C. rewrite V in C. vm_compute in C. discriminate.
Qed.
(** A lawful library for C51. *)
Definition x_lib : library F :=
  mk_library (fun _ => true) (fun _ _ => true) (fun _ _ => true)
    (fun _ _ _ _ => Ask (xc_f 2 1) (fun r => Ask (xc_h 2 0 1 4 5 1) (fun _ =>
       Finish (if rp_ok r then 0 else 5)%Z (fun _ => flit 2) (fun i => flit (Z.of_nat i + 4)) (fun _ => flit 6) (fun _ => flit 7)))).
Lemma x_lawful a l s x : lawful (T := F) xm_prob None (lib_solve x_lib a l s x).
Proof.
  cbn. repeat split; try apply xc_point; try (eexists; split; reflexivity); auto.
  right. repeat split; try apply xc_point; eexists; split; reflexivity.
Qed.
Example C51_example :
  match ipopt_solve_nlp x_lib ipopt_new (mk_nlp xm_prob) with
  | Ok (_, leak, r) => leak = false /\ r = inl (Solved, mk_sol [flit 2] [flit (-4)] [flit (-5)] [flit 7] [flit 6])
  | Panic _ => False
  end.
Proof. vm_compute. split; reflexivity. Qed.
(** Calls that are refused: a wrong number of variables, a missing output, and multipliers
    announced as new but not passed (here the point is taken all the same); and one that is not. *)
Example C56_example :
  let bad := [EvalF 2 (Some [flit 2]) 1 (Some [flit 99]); EvalGradF 1 (Some [flit 2]) 1 None;
              EvalH 1 (Some [flit 2]) 1 (flit 1) 2 None 1 2 None None (Some [flit 99; flit 99])] in
  Forall (fun c => point_memory (T := F) xm_prob c /\ ~ accepted xm_prob c) bad /\ accepted (T := F) xm_prob (xc_f 2 1) /\
  match run_calls (mk_nlp xm_prob) (bad ++ [xc_f 2 1]) with
  | Ok (_, rs) => map (fun r => (rp_ok r, rp_out r)) rs =
                  [(false, Some [flit 99]); (false, None); (false, Some [flit 99; flit 99]); (true, Some [flit 8])]
  | Panic _ => False
  end.
Proof.
  cbn zeta. split; [|split; [repeat split; discriminate|vm_compute; reflexivity]].
  repeat apply Forall_cons; [..|constructor]; (split; [reflexivity|cbn [accepted]; unfold present; intros G]).
  - destruct G as (G & _). discriminate G.
  - destruct G as (_ & _ & G). congruence.
  - destruct G as (_ & _ & _ & _ & G). apply G; reflexivity.
Qed.
