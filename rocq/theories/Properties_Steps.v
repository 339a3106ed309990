(** C64: calls of the command-line solvers side by side, and stopped at any point. *)
From Verif Require Import Base Num Matrix Problem ModelStd Model Text LpFile SolverBase SolFile CmdSolver CmdSteps TextProofs FmtProofs Properties_Cmd StepSpec StepProofs.
From Coq Require Import Floats.SpecFloat.
Local Open Scope string_scope.
Local Open Scope list_scope.

Section C64.
  Context {T : Type} `{Num T} `{NumText T}.

  Lemma own_use shared (c : call_of T) : polite shared c -> uses (own_file c) shared (call_prog c).
  Proof.
    intros Hp. apply prog_uses; [| |exact Hp].
    - intros z E. left. eauto.
    - intros z E. right. eauto.
  Qed.
  (** Nobody's files. *)
  Definition own_of (calls : list (call_of T)) (i : nat) (n : string) : Prop := exists c, nth_error calls i = Some c /\ own_file c n.
  Lemma all_simulate shared (calls : list (call_of T)) f0 schedule : apart shared calls -> Forall (polite shared) calls ->
    simulates (own_of calls) (map call_prog calls) f0 (interleave schedule (map call_prog calls, f0)).
  Proof.
    intros [Ha Hs] Hp. apply (interleave_simulates (own_of calls) shared).
    - intros i j n Hij (c & Ec & Hc) (d & Ed & Hd). exact (Ha i j c d Hij Ec Ed n Hc Hd).
    - intros i n (c & Ec & Hc). exact (Hs c n (nth_error_In _ _ Ec) Hc).
    - intros i p E. rewrite nth_error_map in E. destruct (nth_error calls i) as [c|] eqn:Ec; [|discriminate E]. injection E as <-.
      apply (uses_weaken (own_file c)); [intros n Hn; exists c; auto|]. apply own_use. rewrite Forall_forall in Hp. exact (Hp c (nth_error_In _ _ Ec)).
  Qed.

  (** Whatever the order in which the calls make their steps, and whichever calls have
      stopped: a call that has returned has returned what it returns alone, and its files are
      then as it leaves them alone. *)
  Theorem C64_concurrent shared (calls : list (call_of T)) f0 schedule ps f i c r :
    apart shared calls -> Forall (polite shared) calls ->
    interleave schedule (map call_prog calls, f0) = (ps, f) ->
    nth_error calls i = Some c -> nth_error ps i = Some (Fin r) ->
    snd (alone c f0) = r /\ forall n, own_file c n -> f n = fst (alone c f0) n.
  Proof.
    intros Ha Hp E Ec Ei. destruct (all_simulate shared calls f0 schedule Ha Hp) as (S1 & _). rewrite E in S1. cbn [fst snd] in S1.
    destruct (S1 i (call_prog c)) as (n & En & Hn); [rewrite nth_error_map, Ec; reflexivity|].
    rewrite Ei in En. injection En as En. symmetry in En. apply solo_fin in En.
    destruct (prog_alone (cl_tool c) (call_params c) (cl_problem c) (cl_env c) f0) as [A1 A2].
    unfold call_prog in En. change (cmd_solve (cl_tool c) (call_params c) (cl_problem c) (env_of (cl_env c)) f0) with (alone c f0) in A1, A2.
    split.
    - rewrite <- A1, En. reflexivity.
    - intros m Hm. rewrite Hn by (exists c; auto). rewrite <- A2, En. reflexivity.
  Qed.

  (** At every moment, also when calls were stopped half-way, every file other than the
      calls' own is as it was. *)
  Theorem C64_other_files shared (calls : list (call_of T)) f0 schedule ps f n :
    apart shared calls -> Forall (polite shared) calls ->
    interleave schedule (map call_prog calls, f0) = (ps, f) ->
    (forall c, In c calls -> ~ own_file c n) -> f n = f0 n.
  Proof.
    intros Ha Hp E Hn. destruct (all_simulate shared calls f0 schedule Ha Hp) as (_ & S2 & _). rewrite E in S2. apply S2.
    intros i p _ (c & Ec & Hc). exact (Hn c (nth_error_In _ _ Ec) Hc).
  Qed.

  (** A call that has returned (with a solution or an error) has left none of its files, if
      it got as far as naming both. *)
  Theorem C64_cleaned shared (calls : list (call_of T)) f0 schedule ps f i c r z1 z2 :
    apart shared calls -> Forall (polite shared) calls ->
    interleave schedule (map call_prog calls, f0) = (ps, f) ->
    nth_error calls i = Some c -> nth_error ps i = Some (Fin (Returns r)) -> supported (cl_tool c) (cl_problem c) ->
    ce_tmp1 (cl_env c) = Some z1 -> ce_tmp2 (cl_env c) = Some z2 ->
    f (input_name (cl_tool c) z1) = None /\ f (output_name (cl_tool c) z2) = None.
  Proof.
    intros Ha Hp E Ec Ei Hs E1 E2. destruct (C64_concurrent shared calls f0 schedule ps f i c _ Ha Hp E Ec Ei) as [Hr Hf].
    rewrite !Hf by (unfold own_file; eauto).
    destruct (alone c f0) as [g o] eqn:Eg. cbn [fst snd] in Hr |- *. subst o.
    assert (Hl : exists lvl, get_param (call_params c) "logLevel" = Some (IntParam lvl)).
    { destruct (C47_solvers (T := T) (cl_set c)) as (A & B & _). unfold call_params. destruct (cl_tool c); assumption. }
    destruct Hl as [lvl Hl].
    assert (Hc : confined (call_env c)).
    { intros cmd args g0 n N1 N2. cbn [call_env os_run]. rewrite Forall_forall in Hp.
      pose proof (Hp c (nth_error_In _ _ Ec) cmd args) as Hu. revert g0. generalize (ce_cmd (cl_env c) cmd args) Hu. clear - N1 N2.
      intros p Hu. induction p as [a|o k IH]; intros g0; cbn [run]; [reflexivity|].
      rewrite IH by (inversion Hu; auto). apply (op_other _ _ _ _ _ _ Hu). intros [Q|Q]; contradiction. }
    exact (proj2 (C48_no_files_left (cl_tool c) (call_params c) (cl_problem c) (call_env c) f0 g r lvl Hl Hc Eg) Hs z1 z2 E1 E2).
  Qed.

  (** Files that calls stopped earlier have left behind do not matter: what a call returns depends
      only on its own two names and on the shared files. *)
  Theorem C64_leftovers shared (c : call_of T) f g : polite shared c ->
    (forall n, own_file c n \/ shared n -> f n = g n) -> (forall n, own_file c n -> ~ shared n) ->
    snd (alone c f) = snd (alone c g).
  Proof.
    intros Hp E Hs.
    destruct (prog_alone (cl_tool c) (call_params c) (cl_problem c) (cl_env c) f) as [A1 _].
    destruct (prog_alone (cl_tool c) (call_params c) (cl_problem c) (cl_env c) g) as [B1 _].
    change (snd (alone c f)) with (snd (cmd_solve (cl_tool c) (call_params c) (cl_problem c) (env_of (cl_env c)) f)). rewrite <- A1.
    change (snd (alone c g)) with (snd (cmd_solve (cl_tool c) (call_params c) (cl_problem c) (env_of (cl_env c)) g)). rewrite <- B1.
    clear A1 B1. pose proof (own_use shared c Hp) as Hu. unfold call_prog in Hu. revert f g E Hu. clear - Hs.
    generalize (cmd_prog (cl_tool c) (call_params c) (cl_problem c) (cl_env c)). intros p. induction p as [a|o k IH]; intros f g E Hu; [reflexivity|].
    cbn [run]. destruct (op_agree (own_file c) shared o k f g Hu E) as [Er Ef]. rewrite Er. apply IH.
    - intros n [Hn|Hn]; [exact (Ef n Hn)|]. assert (Q : ~ own_file c n) by (intros Q; exact (Hs n Q Hn)).
      rewrite !(op_other (own_file c) shared o k _ n Hu Q). auto.
    - inversion Hu; auto.
  Qed.

  (** Every call can be run to its end, whatever happened before. *)
  Theorem C64_progress (ps : list (prog (outcome_of (sum (status * sol T) string)))) f i : i < length ps ->
    exists n r, nth_error (fst (interleave (repeat i n) (ps, f))) i = Some (Fin r).
  Proof.
    intros Hi. destruct (nth_error ps i) as [p|] eqn:E; [|apply nth_error_None in E; lia]. clear Hi.
    revert ps f E. induction p as [a|o k IH]; intros ps f E.
    - exists 0, a. exact E.
    - destruct (IH (snd (fapply o f)) (set_nth ps i (k (snd (fapply o f)))) (fst (fapply o f)) (nth_set_same _ _ _ _ E)) as (n & r & En).
      exists (S n), r. cbn [repeat]. unfold interleave in En |- *. cbn [fold_left]. unfold step_one at 2. cbn [fst snd]. rewrite E. exact En.
  Qed.

  (** Two calls whose temporary names differ have different files. *)
  Lemma app_inj_s (a b c : string) : (a ++ b = a ++ c)%string -> b = c.
  Proof. induction a as [|x a IH]; cbn; intros E; [exact E|]. injection E as E. exact (IH E). Qed.
  Lemma length_app_s (a b : string) : String.length (a ++ b) = String.length a + String.length b.
  Proof. induction a as [|x a IH]; cbn; congruence. Qed.
  Lemma app_inj_r (a b c : string) : (a ++ c = b ++ c)%string -> a = b.
  Proof.
    revert b. induction a as [|x a IH]; intros [|y b] E; cbn in E; try reflexivity.
    - exfalso. apply (f_equal String.length) in E. cbn in E. rewrite length_app_s in E. lia.
    - exfalso. apply (f_equal String.length) in E. cbn in E. rewrite length_app_s in E. lia.
    - injection E as -> E. f_equal. exact (IH b E).
  Qed.
  Theorem C64_names (c d : call_of T) :
    (cl_tool c = cl_tool d -> (forall z, ce_tmp1 (cl_env c) = Some z -> ce_tmp1 (cl_env d) <> Some z) /\
                              (forall z, ce_tmp2 (cl_env c) = Some z -> ce_tmp2 (cl_env d) <> Some z)) ->
    forall n, own_file c n -> ~ own_file d n.
  Proof.
    intros Hd n Hc Hn.
    assert (Pre : forall t t' a b, (program t ++ a = program t' ++ b)%string -> t = t' /\ a = b).
    { intros t t' a b E. destruct t, t'; cbn in E; try discriminate E; (split; [reflexivity|]); injection E as E; exact E. }
    destruct Hc as [(z & Ez & ->)|(z & Ez & ->)], Hn as [(y & Ey & E)|(y & Ey & E)].
    - apply Pre in E as [Et E]. apply app_inj_r in E. subst y. exact (proj1 (Hd Et) z Ez Ey).
    - assert (Et : cl_tool c = cl_tool d) by (apply Pre in E; tauto). rewrite Et in E. exact (names_differ _ _ _ E).
    - assert (Et : cl_tool c = cl_tool d) by (apply Pre in E; tauto). rewrite Et in E. symmetry in E. exact (names_differ _ _ _ E).
    - apply Pre in E as [Et E]. apply app_inj_r in E. subst y. exact (proj2 (Hd Et) z Ez Ey).
  Qed.
End C64.

(** ** Concrete calls *)
#[local] Existing Instance NumF0.
(** Minimise x_0 subject to x_0 = v, 0 <= x_0 <= 10 (the other branch is not taken). *)
Definition c64_none : minlp F :=
  let e := mk_coo 0 0 [] [] [] in mk_minlp None (mk_bufs n0 [] e [] e []) e [] e [] [] [] (fun b _ => Ok b).
Definition c64_lp (v : Z) : problem F :=
  match lp_new [flit 1] (mk_coo 1 1 [0] [0] [flit 1]) [flit v] [flit 0] [flit 10] None with Ok p => PLp p | Panic _ => PMinlp c64_none end.
Definition c64_text (v : Z) : string :=
  match c64_lp v with PLp p => match write_to_lp_file (lp_milp p) with Ok text => text | Panic _ => "" end | _ => "" end.
(** A command that reads the problem and a file of options, then writes the solution in two pieces. *)
Definition c64_cmd (cmd : string) (args : list string) : prog bool :=
  Op (FRead (hd "" args)) (fun c => Op (FRead "options.txt") (fun _ => Op (FCreate (last args "")) (fun _ =>
  Op (FAppend (last args "") ("optimal" ++ nls ++ "Objective value" ++ nls)) (fun _ =>
  Op (FAppend (last args "") (match c with
     | Some text => if (text =? c64_text 1) then ("0 x_0 1 0" ++ nls)%string else if (text =? c64_text 2) then ("0 x_0 2 0" ++ nls)%string else ("0 x_0 9 0" ++ nls)%string
     | None => "" end)) (fun _ => Fin true))))).
Definition c64_call (v : Z) (z1 z2 : string) : call_of F :=
  mk_call Clp [("logLevel", IntParam 0)] (c64_lp v) (mk_cenv (Some z1) (Some z2) true None [3; 10; 0; 7] c64_cmd).
Definition c64_shared (n : string) : Prop := n = "options.txt".
Definition c64_calls : list (call_of F) := [c64_call 1 "A1" "B1"; c64_call 2 "A2" "B2"].
Definition c64_files : files := put (put (fun _ => None) "notes.txt" "keep") "options.txt" "none".
Lemma c64_polite v z1 z2 : polite c64_shared (c64_call v z1 z2).
Proof. intros cmd args. cbn. constructor; [auto|intros c]. constructor; [right; reflexivity|intros _]. repeat (constructor; [auto|intros _]). constructor. Qed.
Lemma c64_apart : apart c64_shared c64_calls.
Proof.
  split.
  - intros i j c d Hij Ec Ed.
    assert (Q : (c = c64_call 1 "A1" "B1" /\ d = c64_call 2 "A2" "B2") \/ (d = c64_call 1 "A1" "B1" /\ c = c64_call 2 "A2" "B2")).
    { destruct i as [|[|i]], j as [|[|j]]; try congruence; cbn in Ec, Ed; try (destruct i; discriminate Ec); try (destruct j; discriminate Ed);
        assert (U : forall (x y : call_of F), Some x = Some y -> y = x) by (intros x y E; injection E as ->; reflexivity);
        apply U in Ec, Ed; auto. }
    destruct Q as [[-> ->]|[-> ->]]; apply C64_names; intros _; (split; intros z E E'; cbn in E, E'; congruence).
  - intros c n Hc Ho Hs. red in Hs. subst n. destruct Hc as [<-|[<-|[]]]; destruct Ho as [(z & E & Q)|(z & E & Q)]; cbn in E, Q; discriminate Q.
Qed.
Definition c64_result {A} (p : option (prog A)) : option A := match p with Some (Fin r) => Some r | _ => None end.
(** Two calls taking turns: both get their own solution. *)
Definition c64_turns : list nat := concat (repeat [0; 1; 1; 0] 12).
Example C64_example :
  apart c64_shared c64_calls /\ Forall (polite c64_shared) c64_calls /\
  let w := interleave c64_turns (map call_prog c64_calls, c64_files) in
  c64_result (nth_error (fst w) 0) = Some (Returns (inl (Solved, mk_sol [flit 1] [flit 0] [] [S754_zero true] [flit 0]))) /\
  c64_result (nth_error (fst w) 1) = Some (Returns (inl (Solved, mk_sol [flit 2] [flit 0] [] [S754_zero true] [flit 0]))) /\
  map (snd w) ["notes.txt"; "options.txt"; "clpA1.lp"; "clpB1.sol"; "clpA2.lp"; "clpB2.sol"] = [Some "keep"; Some "none"; None; None; None; None].
Proof.
  split; [exact c64_apart|]. split; [constructor; [apply c64_polite|constructor; [apply c64_polite|constructor]]|].
  vm_compute. auto.
Qed.
(** The names are chosen by creating a temporary file and deleting it at once, so nothing keeps
    two calls from getting the same name.  Then a call can return, as its own, the solution of
    the other's problem. *)
Theorem C64_same_names_refuted : exists (c d : call_of F) schedule ps f r,
  polite c64_shared c /\ polite c64_shared d /\ (forall n, own_file c n -> n <> "options.txt") /\ (forall n, own_file d n -> n <> "options.txt") /\
  interleave schedule ([call_prog c; call_prog d], c64_files) = (ps, f) /\
  nth_error ps 0 = Some (Fin (Returns (inl (Solved, r)))) /\ s_x r = [flit 2] /\
  exists r', snd (alone c c64_files) = Returns (inl (Solved, r')) /\ s_x r' = [flit 1].
Proof.
  exists (c64_call 1 "A1" "B1"), (c64_call 2 "A1" "B1").
  pose (s := repeat 0 6 ++ repeat 1 6 ++ repeat 0 20). exists s.
  set (w := interleave s _). exists (fst w), (snd w).
  assert (E : c64_result (nth_error (fst w) 0) = Some (Returns (inl (Solved, mk_sol [flit 2] [flit 0] [] [S754_zero true] [flit 0])))) by (vm_compute; reflexivity).
  assert (E2 : snd (alone (c64_call 1 "A1" "B1") c64_files) = Returns (inl (Solved, mk_sol [flit 1] [flit 0] [] [S754_zero true] [flit 0]))) by (vm_compute; reflexivity).
  destruct (nth_error (fst w) 0) as [[x|]|] eqn:En; try discriminate E. cbn [c64_result] in E.
  assert (U : forall A (x y : A), Some x = Some y -> x = y) by (intros A x0 y E0; injection E0 as ->; reflexivity). apply U in E. subst x.
  eexists. split; [apply c64_polite|]. split; [apply c64_polite|].
  split; [|split; [|split; [destruct w; reflexivity|split; [reflexivity|split; [reflexivity|eexists; split; [exact E2|reflexivity]]]]]].
  all: intros n [(z & E1 & ->)|(z & E1 & ->)]; cbn; discriminate.
Qed.
