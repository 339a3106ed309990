(** Proofs about interleaved file programs. *)
From Verif Require Import Base Num Problem ModelStd Text LpFile SolverBase SolFile CmdSolver CmdSteps TextProofs Properties_Cmd StepSpec.
Local Open Scope string_scope.
Local Open Scope list_scope.

Definition eqf (f g : files) : Prop := forall n, f n = g n.
Lemma eqf_refl f : eqf f f. Proof. intros n. reflexivity. Qed.
Lemma eqf_sym f g : eqf f g -> eqf g f. Proof. intros E n. symmetry. apply E. Qed.
Lemma eqf_trans f g h : eqf f g -> eqf g h -> eqf f h. Proof. intros E E' n. rewrite E. apply E'. Qed.
Lemma put_eqf f g n s : eqf f g -> eqf (put f n s) (put g n s).
Proof. intros E m. unfold put. destruct (_ =? _); [reflexivity|apply E]. Qed.
Lemma remove_eqf f g n : eqf f g -> eqf (remove f n) (remove g n).
Proof. intros E m. unfold remove. destruct (_ =? _); [reflexivity|apply E]. Qed.
Lemma fapply_eqf o f g : eqf f g -> snd (fapply o f) = snd (fapply o g) /\ eqf (fst (fapply o f)) (fst (fapply o g)).
Proof.
  intros E. destruct o as [n|n s|n|n]; cbn [fapply fst snd].
  - split; [reflexivity|]. apply put_eqf. exact E.
  - split; [reflexivity|]. rewrite (E n). destruct (g n); [apply put_eqf|]; exact E.
  - split; [reflexivity|]. apply remove_eqf. exact E.
  - split; [apply E|exact E].
Qed.
Lemma run_eqf {A} (p : prog A) : forall f g, eqf f g -> snd (run p f) = snd (run p g) /\ eqf (fst (run p f)) (fst (run p g)).
Proof.
  induction p as [a|o k IH]; intros f g E; cbn [run].
  - split; [reflexivity|exact E].
  - destruct (fapply_eqf o f g E) as [E1 E2]. rewrite E1. apply IH. exact E2.
Qed.
Lemma run_bind {A B} (p : prog A) (g : A -> prog B) : forall f, run (pbind p g) f = run (g (snd (run p f))) (fst (run p f)).
Proof. induction p as [a|o k IH]; intros f; cbn [run pbind fst snd]; [reflexivity|]. apply IH. Qed.

(** ** A program alone *)
(** [n] operations of a program alone. *)
Fixpoint solo {A} (n : nat) (p : prog A) (f : files) : prog A * files :=
  match n, p with
  | S n, Op o k => solo n (k (snd (fapply o f))) (fst (fapply o f))
  | _, _ => (p, f)
  end.
Lemma solo_run {A} n : forall (p : prog A) f, run (fst (solo n p f)) (snd (solo n p f)) = run p f.
Proof. induction n as [|n IH]; intros [a|o k] f; cbn [solo fst snd]; try reflexivity. rewrite IH. reflexivity. Qed.
Lemma solo_fin {A} n (p : prog A) f a : fst (solo n p f) = Fin a -> run p f = (snd (solo n p f), a).
Proof. intros E. rewrite <- (solo_run n p f), E. reflexivity. Qed.
Lemma solo_snoc {A} n : forall (p : prog A) f o k, fst (solo n p f) = Op o k ->
  solo (S n) p f = (k (snd (fapply o (snd (solo n p f)))), fst (fapply o (snd (solo n p f)))).
Proof.
  induction n as [|n IH]; intros p f o k E.
  - destruct p as [a|o' k']; [discriminate E|]. cbn [solo fst] in E. injection E as <- <-. reflexivity.
  - destruct p as [a|o' k']; [discriminate E|]. cbn [solo] in E |- *.
    exact (IH _ _ _ _ E).
Qed.

Lemma uses_solo {A} own shared n : forall (p : prog A) f, uses own shared p -> uses own shared (fst (solo n p f)).
Proof.
  induction n as [|n IH]; intros p f Hu; [destruct p; exact Hu|]. destruct p as [a|o k]; [exact Hu|]. cbn [solo].
  apply IH. inversion Hu; auto.
Qed.
Lemma uses_bind {A B} own shared (p : prog A) (g : A -> prog B) :
  uses own shared p -> (forall a, uses own shared (g a)) -> uses own shared (pbind p g).
Proof. intros Hp Hg. induction Hp; cbn [pbind]; [apply Hg|constructor; auto..]. Qed.
Lemma uses_weaken {A} (own own' shared : string -> Prop) (p : prog A) : (forall n, own n -> own' n) -> uses own shared p -> uses own' shared p.
Proof. intros Hw Hp. induction Hp as [a|n k Hn _ IH|n s k Hn _ IH|n k Hn _ IH|n k Hn _ IH]; constructor; auto. destruct Hn; auto. Qed.

(** Names a program does not own are not changed by it. *)
Lemma op_other {A} own shared o (k : option string -> prog A) f n : uses own shared (Op o k) -> ~ own n -> fst (fapply o f) n = f n.
Proof.
  intros Hu Hn. assert (Q : forall m, own m -> (n =? m) = false) by (intros m Hm; apply String.eqb_neq; intros ->; exact (Hn Hm)).
  inversion Hu; subst; cbn [fapply fst].
  - unfold put. rewrite Q by assumption. reflexivity.
  - destruct (f n0); [unfold put; rewrite Q by assumption|]; reflexivity.
  - unfold remove. rewrite Q by assumption. reflexivity.
  - reflexivity.
Qed.
(** Two file systems that agree on the names a program uses. *)
Lemma op_agree {A} (own shared : string -> Prop) o (k : option string -> prog A) f g : uses own shared (Op o k) ->
  (forall n, own n \/ shared n -> f n = g n) ->
  snd (fapply o f) = snd (fapply o g) /\ forall n, own n -> fst (fapply o f) n = fst (fapply o g) n.
Proof.
  intros Hu E. inversion Hu as [|m ? Hm|m s ? Hm|m ? Hm|m ? Hm]; subst; cbn [fapply fst snd].
  - split; [reflexivity|]. intros n Hn. unfold put. destruct (n =? m); [reflexivity|auto].
  - split; [reflexivity|]. intros n Hn. rewrite (E m) by auto. destruct (g m); [|auto]. unfold put. destruct (n =? m); auto.
  - split; [reflexivity|]. intros n Hn. unfold remove. destruct (n =? m); auto.
  - split; [apply E; assumption|]. intros n Hn. auto.
Qed.

Lemma nth_set_same {A} (l : list A) i x y : nth_error l i = Some y -> nth_error (set_nth l i x) i = Some x.
Proof. revert i; induction l as [|a l IH]; intros [|i] E; cbn in *; try discriminate; auto. Qed.
Lemma nth_set_other {A} (l : list A) i j (x : A) : i <> j -> nth_error (set_nth l i x) j = nth_error l j.
Proof. revert i j; induction l as [|a l IH]; intros [|i] [|j] N; cbn; try reflexivity; try congruence. apply IH. lia. Qed.

(** ** Side by side *)
Section Interleave.
  Context {A : Type}.
  Variables (own : nat -> string -> Prop) (shared : string -> Prop).
  Hypothesis own_apart : forall i j n, i <> j -> own i n -> ~ own j n.
  Hypothesis own_shared : forall i n, own i n -> ~ shared n.
  Variables (ps : list (prog A)) (f0 : files).
  Hypothesis all_use : forall i p, nth_error ps i = Some p -> uses (own i) shared p.

  Definition simulates (w : list (prog A) * files) : Prop :=
    (forall i p, nth_error ps i = Some p -> exists n, nth_error (fst w) i = Some (fst (solo n p f0)) /\
       forall m, own i m -> snd w m = snd (solo n p f0) m) /\
    (forall m, (forall i p, nth_error ps i = Some p -> ~ own i m) -> snd w m = f0 m) /\ length (fst w) = length ps.

  Lemma solo_shared n : forall (p : prog A) f m, (exists i, uses (own i) shared p) -> shared m -> snd (solo n p f) m = f m.
  Proof.
    induction n as [|n IH]; intros [a|o k] f m [i Hu] Hm; cbn [solo snd]; try reflexivity.
    rewrite IH; [|exists i; inversion Hu; auto|exact Hm]. apply (op_other (own i) shared o k); [exact Hu|]. intros Ho. exact (own_shared i m Ho Hm).
  Qed.

  Lemma step_simulates w i : simulates w -> simulates (step_one w i).
  Proof.
    intros (H1 & H2 & H3). unfold step_one. destruct (nth_error (fst w) i) as [[a|o k]|] eqn:Ei; [split; auto| |split; auto].
    destruct (nth_error ps i) as [p|] eqn:Ep.
    2:{ apply nth_error_None in Ep. assert (i < length (fst w)) by (apply nth_error_Some; congruence). lia. }
    destruct (H1 i p Ep) as (n & En & Hn). rewrite Ei in En. injection En as En. symmetry in En.
    pose proof (uses_solo (own i) shared n p f0 (all_use i p Ep)) as Hu. rewrite En in Hu.
    assert (Hag : forall m, own i m \/ shared m -> snd w m = snd (solo n p f0) m).
    { intros m [Hm|Hm]; [auto|]. rewrite solo_shared; [|exists i; auto|exact Hm]. apply H2. intros j q Ej Ho. exact (own_shared j m Ho Hm). }
    destruct (op_agree (own i) shared o k (snd w) (snd (solo n p f0)) Hu Hag) as [Er Ef].
    split; [|split].
    - intros j q Ej. cbn [fst snd]. destruct (Nat.eq_dec i j) as [<-|Hij].
      + replace q with p by congruence. exists (S n). rewrite (solo_snoc n p f0 o k En). cbn [fst snd].
        split; [rewrite (nth_set_same _ _ _ _ Ei), Er; reflexivity|exact Ef].
      + destruct (H1 j q Ej) as (n' & En' & Hn'). exists n'. split; [rewrite nth_set_other by exact Hij; exact En'|].
        intros m Hm. rewrite <- Hn' by exact Hm. apply (op_other (own i) shared o k); [exact Hu|]. exact (own_apart j i m (fun E => Hij (eq_sym E)) Hm).
    - intros m Hm. cbn [snd]. rewrite <- H2 by exact Hm. apply (op_other (own i) shared o k); [exact Hu|]. exact (Hm i p Ep).
    - cbn [fst]. rewrite <- H3. clear. generalize (k (snd (fapply o (snd w)))). intros x. revert i; induction (fst w) as [|a l IH]; intros [|i]; cbn; auto.
  Qed.
  Theorem interleave_simulates schedule : simulates (interleave schedule (ps, f0)).
  Proof.
    assert (G : forall w, simulates w -> simulates (interleave schedule w)).
    { induction schedule as [|i s IH]; intros w Hw; [exact Hw|]. apply IH. apply step_simulates. exact Hw. }
    apply G. split; [|split]; cbn [fst snd]; try reflexivity. intros i p E. exists 0. split; [destruct p; exact E|]. intros m _. destruct p; reflexivity.
  Qed.
End Interleave.

(** ** A call alone is [cmd_solve] *)
Lemma sub_all s : substring 0 (String.length s) s = s.
Proof. induction s as [|c s IH]; cbn; [reflexivity|]. f_equal. exact IH. Qed.
Lemma sub_app s : forall n, (substring 0 n s ++ substring n (String.length s - n) s)%string = s.
Proof.
  induction s as [|c s IH]; intros [|n]; cbn [substring String.length append Nat.sub]; try reflexivity.
  - f_equal. apply sub_all.
  - f_equal. apply IH.
Qed.
Lemma chunks_concat l : forall s, String.concat "" (chunks l s) = s.
Proof.
  induction l as [|n l IH]; intros s; cbn [chunks]; [reflexivity|].
  transitivity (substring 0 n s ++ String.concat "" (chunks l (substring n (String.length s - n) s)))%string.
  - destruct (chunks l _) eqn:E; [destruct l; discriminate E|]. reflexivity.
  - rewrite IH. apply sub_app.
Qed.
Lemma appends_run {A} n l : forall (p : prog A) f t, f n = Some t ->
  eqf (fst (run (appends n l p) f)) (fst (run p (put f n (t ++ String.concat "" l)%string))) /\
  snd (run (appends n l p) f) = snd (run p (put f n (t ++ String.concat "" l)%string)).
Proof.
  induction l as [|s l IH]; intros p f t E; cbn [appends].
  - cbn [String.concat]. assert (Q : eqf f (put f n (t ++ "")%string)).
    { intros m. unfold put. destruct (String.eqb_spec m n) as [->|]; [|reflexivity]. rewrite E. f_equal.
      clear. induction t as [|c t IH]; cbn; [reflexivity|]. f_equal. exact IH. }
    destruct (run_eqf p _ _ Q) as [A1 A2]. split; assumption.
  - cbn [run fapply fst snd]. rewrite E.
    assert (E1 : put f n (t ++ s)%string n = Some (t ++ s)%string) by (unfold put; rewrite String.eqb_refl; reflexivity).
    destruct (IH p _ _ E1) as [A1 A2].
    assert (Q : eqf (put (put f n (t ++ s)%string) n ((t ++ s) ++ String.concat "" l)%string) (put f n (t ++ String.concat "" (s :: l)%list)%string)).
    { intros m. unfold put. destruct (m =? n) eqn:Em; [|reflexivity]. f_equal. destruct l as [|s' l]; cbn [String.concat].
      - clear. induction t as [|c t IH]; cbn; [induction s; cbn; congruence|]. f_equal. exact IH.
      - apply app_assoc_s. }
    destruct (run_eqf p _ _ Q) as [B1 B2]. split; [exact (eqf_trans _ _ _ A1 B2)|congruence].
Qed.

Section Alone.
  Context {T : Type} `{Num T} `{NumText T}.
  Definition env_of (e : cenv) : osys :=
    mk_osys (ce_tmp1 e) (ce_tmp2 e) (ce_create e) (ce_disk e) (fun cmd args => run (ce_cmd e cmd args)).
  Lemma write_alone (e : cenv) name (p : milp T) f :
    snd (run (write_prog e name p) f) = snd (write_file (env_of e) f name p) /\
    eqf (fst (run (write_prog e name p) f)) (fst (write_file (env_of e) f name p)).
  Proof.
    unfold write_prog, write_file. cbn [env_of os_create os_disk]. destruct (ce_create e); [|split; [reflexivity|apply eqf_refl]].
    cbn [run fapply fst snd].
    destruct (write_to_lp_file p) as [text|x]; [|cbn [run]; split; [reflexivity|apply eqf_refl]].
    assert (G : forall s b, snd (run (appends name (chunks (ce_split e) s) (Fin (Ok b))) (put f name "")) = Ok b /\
                            eqf (fst (run (appends name (chunks (ce_split e) s) (Fin (@Ok bool b))) (put f name ""))) (put f name s)).
    { intros s b. assert (E1 : put f name "" name = Some "") by (unfold put; rewrite String.eqb_refl; reflexivity).
      destruct (appends_run name (chunks (ce_split e) s) (Fin (Ok b)) _ _ E1) as [A1 A2]. split; [exact A2|].
      eapply eqf_trans; [exact A1|]. cbn [run fst]. rewrite chunks_concat. intros m. unfold put. destruct (m =? name); reflexivity. }
    destruct (ce_disk e) as [n|]; [destruct (n <? _)%nat|]; cbn [fst snd]; apply G.
  Qed.
  Lemma prog_alone t ps (p : problem T) e f :
    snd (run (cmd_prog t ps p e) f) = snd (cmd_solve t ps p (env_of e) f) /\
    eqf (fst (run (cmd_prog t ps p e) f)) (fst (cmd_solve t ps p (env_of e) f)).
  Proof.
    unfold cmd_prog, cmd_solve. cbn [env_of os_tmp1 os_tmp2 os_run].
    destruct (accepts t p) as [q|]; [|split; [reflexivity|apply eqf_refl]].
    destruct (ce_tmp1 e) as [r1|]; [|split; [reflexivity|apply eqf_refl]].
    destruct (ce_tmp2 e) as [r2|]; [|split; [reflexivity|apply eqf_refl]]. cbv zeta.
    set (inp := (tool_name t ++ r1 ++ ".lp")%string). set (out := (tool_name t ++ r2 ++ ".sol")%string).
    rewrite run_bind. destruct (write_alone e inp q f) as [W1 W2].
    destruct (write_file (env_of e) f inp q) as [f1 w] eqn:Ew. cbn [fst snd] in W1, W2. rewrite W1.
    set (g1 := fst (run (write_prog e inp q) f)) in *. clearbody g1. clear W1 Ew.
    assert (R2 : forall g h (r : outcome_of (sum (status * sol T) string)), eqf g h ->
       snd (run (Op (FRemove inp) (fun _ => Op (FRemove out) (fun _ => Fin r))) g) = r /\
       eqf (fst (run (Op (FRemove inp) (fun _ => Op (FRemove out) (fun _ => Fin r))) g)) (remove (remove h inp) out)).
    { intros g h r E. cbn [run fapply fst snd]. split; [reflexivity|]. apply remove_eqf, remove_eqf. exact E. }
    destruct w as [[|]|x]; [|apply R2; exact W2|split; [reflexivity|exact W2]].
    destruct (get_param ps "logLevel") as [[lvl| |]|]; try (split; [reflexivity|exact W2]).
    rewrite run_bind. set (args := [inp; _; _; _; _; _; _; out]).
    destruct (run_eqf (ce_cmd e (tool_name t) args) _ _ W2) as [C1 C2]. rewrite C1.
    destruct (run (ce_cmd e (tool_name t) args) f1) as [f2 ok]. cbn [fst snd] in C1, C2 |- *.
    set (g2 := fst (run (ce_cmd e (tool_name t) args) g1)) in *. clearbody g2. clear C1.
    destruct ok; [|apply R2; exact C2].
    cbn [run fapply fst snd]. assert (E3 : eqf (remove g2 inp) (remove f2 inp)) by (apply remove_eqf; exact C2). rewrite (E3 out).
    destruct (read_sol_file _ _ _ _) as [[r|]|x]; cbn [run fapply fst snd]; (split; [reflexivity|]); first [exact E3|apply remove_eqf; exact E3].
  Qed.
  Lemma prog_uses t ps (p : problem T) e (own shared : string -> Prop) :
    (forall z, ce_tmp1 e = Some z -> own (input_name t z)) -> (forall z, ce_tmp2 e = Some z -> own (output_name t z)) ->
    (forall cmd args, uses (fun n => n = hd "" args \/ n = last args "")%string shared (ce_cmd e cmd args)) ->
    uses own shared (cmd_prog t ps p e).
  Proof.
    intros Hi Ho Hc. unfold cmd_prog. destruct (accepts t p) as [q|]; [|constructor].
    destruct (ce_tmp1 e) as [r1|]; [|constructor]. destruct (ce_tmp2 e) as [r2|]; [|constructor]. cbv zeta.
    specialize (Hi r1 eq_refl). specialize (Ho r2 eq_refl). unfold input_name in Hi. unfold output_name in Ho. change (program t) with (tool_name t) in Hi, Ho.
    set (inp := (tool_name t ++ r1 ++ ".lp")%string) in *. set (out := (tool_name t ++ r2 ++ ".sol")%string) in *.
    assert (Ha : forall A l (k : prog A), uses own shared k -> uses own shared (appends inp l k)).
    { intros A l k Hk. induction l as [|s l IH]; [exact Hk|]. cbn [appends]. constructor; auto. }
    apply uses_bind.
    - unfold write_prog. destruct (ce_create e); [|constructor]. constructor; [exact Hi|]. intros _.
      destruct (write_to_lp_file q); [|constructor]. destruct (ce_disk e) as [n|]; [destruct (n <? _)%nat|]; apply Ha; constructor.
    - intros [[|]|x]; [|repeat (constructor; [assumption|intros _]); constructor|constructor].
      destruct (get_param ps "logLevel") as [[lvl| |]|]; try constructor.
      apply uses_bind.
      + eapply uses_weaken; [|apply Hc]. cbn [hd last]. intros n [ -> | -> ]; assumption.
      + intros [|]; [|repeat (constructor; [assumption|intros _]); constructor].
        constructor; [exact Hi|intros _]. constructor; [left; exact Ho|intros c].
        destruct (read_sol_file _ _ _ _) as [[r|]|x]; [constructor; [exact Ho|intros _; constructor]..|constructor].
  Qed.
End Alone.
