(** C47, C48: parameters and files of the command-line solvers. *)
From Verif Require Import Base Num Matrix Problem ModelStd Model Text LpFile SolverBase SolFile CmdSolver MapProofs TextProofs.
From Coq Require Import Floats.SpecFloat.
Local Open Scope string_scope.
Local Open Scope list_scope.

(** * C47 *)

(** The type of a parameter. *)
Inductive kind := KInt | KFloat | KStr.
Definition kind_of {T} (p : param T) : kind :=
  match p with IntParam _ => KInt | FloatParam _ => KFloat | StrParam _ => KStr end.

Definition same_kind (a b : kind) : bool :=
  match a, b with KInt, KInt | KFloat, KFloat | KStr, KStr => true | _, _ => false end.
Lemma same_kind_eq a b : same_kind a b = true <-> a = b.
Proof. destruct a, b; cbn; split; congruence. Qed.

(** A program setting parameters, ignoring errors. *)
Definition after {T} (ps : params T) (calls : list (string * param T)) : params T :=
  fold_left (fun ps c => match set_param ps (fst c) (snd c) with inl ps' => ps' | inr _ => ps end) calls ps.

(** What a parameter holds then: the last value of the right type given to it. *)
Definition latest {T} (name : string) (init : param T) (calls : list (string * param T)) : param T :=
  last (map snd (filter (fun c => (fst c =? name)%string && same_kind (kind_of (snd c)) (kind_of init)) calls)) init.

Lemma sget_same {V} k v (m : list (string * V)) : hget String.eqb k (hinsert String.eqb k v m) = Some v.
Proof.
  apply hget_hinsert_same; [apply String.eqb_sym| |apply String.eqb_refl].
  intros a b c H1 H2. apply String.eqb_eq in H1, H2. subst. apply String.eqb_refl.
Qed.
Lemma sget_other {V} k k' v (m : list (string * V)) : k <> k' -> hget String.eqb k (hinsert String.eqb k' v m) = hget String.eqb k m.
Proof.
  intros Hn. apply hget_hinsert_other; [apply String.eqb_sym| |apply String.eqb_neq; exact Hn].
  intros a b c H1 H2. apply String.eqb_eq in H1, H2. subst. apply String.eqb_refl.
Qed.

Theorem C47_set_param {T} (ps : params T) name v :
  match set_param ps name v with
  | inl ps' =>
    (exists old, get_param ps name = Some old /\ kind_of old = kind_of v) /\
    get_param ps' name = Some v /\ (forall n, n <> name -> get_param ps' n = get_param ps n)
  | inr e =>
    (get_param ps name = None /\ e = "unknown parameter") \/
    (exists old, get_param ps name = Some old /\ kind_of old <> kind_of v /\ e = "invalid parameter type")
  end.
Proof.
  unfold set_param, get_param. destruct (hget String.eqb name ps) as [old|] eqn:E; [|auto].
  destruct old, v; first
    [ split; [eexists; split; [reflexivity|reflexivity]|]; split; [apply sget_same|intros n Hn; apply sget_other; exact Hn]
    | right; eexists; split; [reflexivity|]; split; [discriminate|reflexivity] ].
Qed.

Lemma after_cons {T} (ps : params T) c calls :
  after ps (c :: calls) = after (match set_param ps (fst c) (snd c) with inl ps' => ps' | inr _ => ps end) calls.
Proof. reflexivity. Qed.

(** After any calls, every parameter is there with its type and holds the latest
    value of that type given to it. *)
Theorem C47_history {T} calls : forall (ps : params T) name,
  get_param (after ps calls) name = option_map (fun init => latest name init calls) (get_param ps name).
Proof.
  induction calls as [|[n v] calls IH]; intros ps name.
  - unfold after, latest. cbn [fold_left map filter last]. destruct (get_param ps name); reflexivity.
  - rewrite after_cons, IH. cbn [fst snd]. pose proof (C47_set_param ps n v) as P.
    destruct (set_param ps n v) as [ps'|e].
    + destruct P as ((old & Eo & Ek) & Es & Hn). destruct (String.eqb_spec n name) as [->|Hne].
      * rewrite Es, Eo. cbn [option_map]. f_equal. unfold latest. cbn [filter fst snd].
        rewrite String.eqb_refl. cbn [andb]. rewrite Ek, (proj2 (same_kind_eq _ _) eq_refl).
        cbn [map snd]. destruct (map snd _) as [|a l] eqn:El; [reflexivity|]. cbn [last].
        clear. revert a. induction l as [|b l IH]; intros a; [reflexivity|]. cbn in *. apply IH.
      * rewrite Hn by congruence. destruct (get_param ps name) as [init|]; [|reflexivity]. cbn [option_map]. f_equal.
        unfold latest. cbn [filter fst snd]. apply String.eqb_neq in Hne. rewrite Hne. reflexivity.
    + destruct (get_param ps name) as [init|] eqn:Ei; [|reflexivity]. cbn [option_map]. f_equal.
      unfold latest. cbn [filter fst snd]. destruct (String.eqb_spec n name) as [->|Hne]; [|reflexivity].
      destruct P as [[P _]|(old & P & Hk & _)]; [congruence|]. assert (old = init) by congruence. subst old.
      destruct (same_kind (kind_of v) (kind_of init)) eqn:Es; [apply same_kind_eq in Es; congruence|]. rewrite andb_false_r. reflexivity.
Qed.

Lemma latest_kind {T} name (init : param T) calls : kind_of (latest name init calls) = kind_of init.
Proof.
  unfold latest. set (f := filter _ calls).
  assert (Hf : Forall (fun p => kind_of p = kind_of init) (map snd f)).
  { apply Forall_forall. intros p Hp. apply in_map_iff in Hp as ([n v] & <- & Hv). apply filter_In in Hv as [_ Hv].
    apply andb_true_iff in Hv as [_ Hv]. apply same_kind_eq in Hv. exact Hv. }
  induction Hf as [|a l Ha Hl IH]; [reflexivity|]. cbn. destruct l; auto.
Qed.

Theorem C47_kinds {T} calls (ps : params T) name :
  option_map kind_of (get_param (after ps calls) name) = option_map kind_of (get_param ps name).
Proof. rewrite C47_history. destruct (get_param ps name); cbn; [rewrite latest_kind|]; reflexivity. Qed.

(** The parameters each solver reads are therefore always there, whatever calls were made. *)
Theorem C47_solvers {T} calls :
  (exists i, get_param (after (@clp_new T) calls) "logLevel" = Some (IntParam i)) /\
  (exists i, get_param (after (@cbc_new T) calls) "logLevel" = Some (IntParam i)) /\
  (exists i, get_param (after (@ipopt_new T) calls) "print_level" = Some (IntParam i)) /\
  (exists s, get_param (after (@ipopt_new T) calls) "sb" = Some (StrParam s)).
Proof.
  rewrite !C47_history. cbn [option_map get_param hget clp_new cbc_new ipopt_new String.eqb Ascii.eqb Bool.eqb].
  repeat split.
  all: match goal with |- exists _, Some (latest ?n ?i ?c) = _ => pose proof (latest_kind n i c) as K; destruct (latest n i c); try discriminate; eexists; reflexivity end.
Qed.

(** What each solver's parameters are: the names it knows, their values when nothing
    was set, and otherwise the latest value of the right type. *)
Theorem C47_defaults {T} calls name :
  get_param (after (@clp_new T) calls) name = (if name =? "logLevel" then Some (latest name (IntParam 5) calls) else None)%string /\
  get_param (after (@cbc_new T) calls) name = (if name =? "logLevel" then Some (latest name (IntParam 5) calls) else None)%string /\
  get_param (after (@ipopt_new T) calls) name =
    (if name =? "print_level" then Some (latest name (IntParam 5) calls)
     else if name =? "sb" then Some (latest name (StrParam "no") calls) else None)%string.
Proof.
  rewrite !C47_history. unfold get_param, clp_new, cbc_new, ipopt_new. cbn [hget].
  repeat split; repeat match goal with |- context [(name =? ?s)%string] => destruct (name =? s)%string end; reflexivity.
Qed.

Example C47_example :
  let ps := after (@ipopt_new F) [("print_level", IntParam 3); ("sb", IntParam 1); ("tol", IntParam 2); ("sb", StrParam "yes")] in
  map (get_param ps) ["print_level"; "sb"; "tol"] = [Some (IntParam 3); Some (StrParam "yes"); None] /\
  set_param ps "sb" (IntParam 1) = inr "invalid parameter type" /\ set_param ps "tol" (IntParam 1) = inr "unknown parameter".
Proof. vm_compute. auto. Qed.

(** * C48 *)

(** The problem classes of the documentation: Clp solves linear problems, Cbc
    linear and mixed-integer linear ones. *)
Definition supported {T} (t : tool) (p : problem T) : Prop :=
  match p with PLp _ => True | PMilp _ => t = Cbc | _ => False end.

(** The programs, and the names of the files of one call. *)
Definition program (t : tool) : string := match t with Clp => "clp" | Cbc => "cbc" end.
Definition input_name (t : tool) (r : string) : string := (program t ++ r ++ ".lp")%string.
Definition output_name (t : tool) (r : string) : string := (program t ++ r ++ ".sol")%string.
(** The arguments of the command. *)
Definition arguments (t : tool) (z1 z2 : string) (lvl : Z) : list string :=
  [input_name t z1; "logLevel"; dec_Z lvl; "printingOptions"; "all"; "solve"; "solution"; output_name t z2].

(** The command touches no file but those named by its first and last arguments. *)
Definition confined (o : osys) : Prop :=
  forall cmd args f n, n <> hd "" args -> n <> last args "" -> fst (os_run o cmd args f) n = f n.

Fixpoint last_char (d : ascii) (s : string) : ascii := match s with EmptyString => d | String c r => last_char c r end.
Lemma last_char_app a b c d : last_char d (a ++ String b c) = last_char b c.
Proof. revert d; induction a as [|x a IH]; intros d; cbn; auto. Qed.
Lemma names_differ t r1 r2 : input_name t r1 <> output_name t r2.
Proof.
  intros E. apply (f_equal (last_char " ")) in E. unfold input_name, output_name in E.
  rewrite <- !app_assoc_s, !last_char_app in E. discriminate.
Qed.

Section C48.
  Context {T : Type} `{Num T} `{NumText T}.

  Lemma accepts_supported t (p : problem T) : supported t p <-> exists q, accepts t p = Some q.
  Proof.
    destruct p, t; cbn; split; try (intros [q E]; discriminate); try (intros []; fail); try discriminate; eauto.
  Qed.

  (** An unsupported problem: an error and no file touched. *)
  Theorem C48_unsupported t ps (p : problem T) o f : ~ supported t p ->
    cmd_solve t ps p o f = (f, Returns (inr "problem type not supported")).
  Proof.
    intros Hs. unfold cmd_solve. destruct (accepts t p) eqn:E; [|reflexivity]. destruct Hs. apply accepts_supported. eauto.
  Qed.

  (** A call of a solver that leaves the function through a return: the two files
      are gone and the other files are as they were. *)
  Theorem C48_no_files_left t ps (p : problem T) o f f' r lvl :
    get_param ps "logLevel" = Some (IntParam lvl) -> confined o ->
    cmd_solve t ps p o f = (f', Returns r) ->
    (forall n, f' n = f n \/
       f' n = None /\ exists z, os_tmp1 o = Some z /\ n = input_name t z \/ os_tmp2 o = Some z /\ n = output_name t z) /\
    (supported t p -> forall z1 z2, os_tmp1 o = Some z1 -> os_tmp2 o = Some z2 ->
       f' (input_name t z1) = None /\ f' (output_name t z2) = None).
  Proof.
    intros Hl Hc. unfold cmd_solve.
    destruct (accepts t p) as [q|] eqn:Ea.
    2:{ intros E. injection E as <- _. split; [auto|]. intros Hs. apply accepts_supported in Hs as [q Eq]. congruence. }
    destruct (os_tmp1 o) as [r1|] eqn:E1; [|intros E; injection E as <- _; split; [auto|discriminate]].
    destruct (os_tmp2 o) as [r2|] eqn:E2; [|intros E; injection E as <- _; split; [auto|discriminate]].
    cbv zeta. change (tool_name t ++ r1 ++ ".lp")%string with (input_name t r1). change (tool_name t ++ r2 ++ ".sol")%string with (output_name t r2).
    set (inp := input_name t r1). set (out := output_name t r2).
    assert (Hio : inp <> out) by apply names_differ.
    assert (Hfin : forall g, (forall n, n <> inp -> n <> out -> g n = f n) -> g inp = None -> g out = None ->
       (forall n, g n = f n \/ g n = None /\ exists z, Some r1 = Some z /\ n = input_name t z \/ Some r2 = Some z /\ n = output_name t z) /\
       (supported t p -> forall z1 z2, Some r1 = Some z1 -> Some r2 = Some z2 -> g (input_name t z1) = None /\ g (output_name t z2) = None)).
    { intros g Hg Hi Ho. split.
      - intros n. destruct (string_dec n inp) as [->|N1]; [right; split; [exact Hi|exists r1; left; auto]|].
        destruct (string_dec n out) as [->|N2]; [right; split; [exact Ho|exists r2; right; auto]|]. left. auto.
      - intros _ z1 z2 Ez1 Ez2. injection Ez1 as <-. injection Ez2 as <-. auto. }
    assert (Hw : forall f1 b, write_file o f inp q = (f1, b) -> forall n, n <> inp -> f1 n = f n).
    { intros f1 b. unfold write_file. destruct (os_create o); [|intros E n _; injection E as <- _; reflexivity].
      assert (Hput : forall s n, n <> inp -> put f inp s n = f n).
      { intros s n Hn. unfold put. apply String.eqb_neq in Hn. rewrite Hn. reflexivity. }
      destruct (write_to_lp_file q); [|intros E; injection E as <- _; auto].
      destruct (os_disk o) as [d|]; [destruct (d <? String.length a)%nat|]; intros E; injection E as <- _; auto. }
    assert (R1 : forall g n, remove g n n = None) by (intros g n; unfold remove; rewrite String.eqb_refl; reflexivity).
    assert (R2 : forall g n m, m <> n -> remove g n m = g m).
    { intros g n m Hn. unfold remove. apply String.eqb_neq in Hn. rewrite Hn. reflexivity. }
    assert (R3 : forall g, (forall n, n <> inp -> n <> out -> g n = f n) -> forall n, n <> inp -> n <> out -> remove (remove g inp) out n = f n).
    { intros g Hg n N1 N2. rewrite !R2; auto. }
    assert (R4 : forall g, remove (remove g inp) out inp = None /\ remove (remove g inp) out out = None).
    { intros g. split; [rewrite R2 by exact Hio; apply R1|apply R1]. }
    destruct (write_file o f inp q) as [f1 [ok|e]] eqn:Ew; [|intros E; discriminate E].
    specialize (Hw _ _ eq_refl). destruct ok.
    - rewrite Hl. destruct (os_run o (tool_name t) _ f1) as [f2 ok2] eqn:Er.
      assert (H2 : forall n, n <> inp -> n <> out -> f2 n = f n).
      { intros n N1 N2. replace f2 with (fst (f2, ok2)) by reflexivity. rewrite <- Er, Hc by (cbn [hd last]; auto). auto. }
      destruct ok2.
      + destruct (read_sol_file _ _ _ _) as [[r3|]|e]; [| |discriminate]; intros E; injection E as <- _; apply Hfin; auto; apply R4.
      + intros E. injection E as <- _. apply Hfin; auto; apply R4.
    - intros E. injection E as <- _. apply Hfin; try apply R4. apply R3. auto.
  Qed.

  (** In particular for the solvers as they can be after any calls of set_param. *)
  Theorem C48_clp calls (p : problem T) o f f' r z1 z2 : confined o ->
    cmd_solve Clp (after clp_new calls) p o f = (f', Returns r) -> os_tmp1 o = Some z1 -> os_tmp2 o = Some z2 ->
    forall n, f' n = if (n =? input_name Clp z1)%string || (n =? output_name Clp z2)%string
                     then (match p with PLp _ => None | _ => f n end) else f n.
  Proof.
    intros Hc E E1 E2 n. destruct (C47_solvers (T := T) calls) as ((lvl & Hl) & _).
    destruct (C48_no_files_left Clp _ p o f f' r lvl Hl Hc E) as [A B].
    destruct p; try (rewrite C48_unsupported in E by (intros S; exact S || discriminate S); injection E as <- _; destruct (_ || _); reflexivity).
    specialize (B I z1 z2 E1 E2) as [B1 B2].
    destruct (String.eqb_spec n (input_name Clp z1)) as [->|N1]; [exact B1|].
    destruct (String.eqb_spec n (output_name Clp z2)) as [->|N2]; [exact B2|]. cbn.
    destruct (A n) as [A'|(_ & z & [[Ez ->]|[Ez ->]])]; [exact A'| |]; congruence.
  Qed.
  Theorem C48_cbc calls (p : problem T) o f f' r z1 z2 : confined o ->
    cmd_solve Cbc (after cbc_new calls) p o f = (f', Returns r) -> os_tmp1 o = Some z1 -> os_tmp2 o = Some z2 ->
    forall n, f' n = if (n =? input_name Cbc z1)%string || (n =? output_name Cbc z2)%string
                     then (match p with PLp _ | PMilp _ => None | _ => f n end) else f n.
  Proof.
    intros Hc E E1 E2 n. destruct (C47_solvers (T := T) calls) as (_ & (lvl & Hl) & _).
    destruct (C48_no_files_left Cbc _ p o f f' r lvl Hl Hc E) as [A B].
    destruct p; try (rewrite C48_unsupported in E by (intros S; exact S); injection E as <- _; destruct (_ || _); reflexivity).
    all: first [specialize (B I z1 z2 E1 E2) as [B1 B2] | specialize (B eq_refl z1 z2 E1 E2) as [B1 B2]].
    all: destruct (String.eqb_spec n (input_name Cbc z1)) as [->|N1]; [exact B1|].
    all: destruct (String.eqb_spec n (output_name Cbc z2)) as [->|N2]; [exact B2|]; cbn [orb].
    all: destruct (A n) as [A'|(_ & z & [[Ez ->]|[Ez ->]])]; [exact A'| |]; congruence.
  Qed.

  (** A result is returned exactly when all goes well, and it is what the file
      written by the command says.  The command found the complete text of the
      problem in the input file. *)
  Theorem C48_result t calls ps (p : problem T) o f r : ps = after (match t with Clp => clp_new | Cbc => cbc_new end) calls ->
    ((exists f', cmd_solve t ps p o f = (f', Returns (inl r))) <->
     (exists q z1 z2 text lvl f2,
        ((exists l, p = PLp l /\ lp_milp l = q) \/ t = Cbc /\ p = PMilp q) /\
        os_tmp1 o = Some z1 /\ os_tmp2 o = Some z2 /\
        os_create o = true /\ write_to_lp_file q = Ok text /\
        (forall n, os_disk o = Some n -> String.length text <= n) /\
        get_param ps "logLevel" = Some (IntParam lvl) /\
        os_run o (program t) (arguments t z1 z2 lvl) (put f (input_name t z1) text) = (f2, true) /\
        read_sol_file (f2 (output_name t z2)) (milp_nx q) (milp_na q) (match t with Cbc => true | Clp => false end) = Ok (Some r))).
  Proof.
    intros ->. set (ps := after _ calls).
    assert (Hl : exists lvl, get_param ps "logLevel" = Some (IntParam lvl)).
    { destruct (C47_solvers (T := T) calls) as (A & B & _). destruct t; assumption. }
    destruct Hl as [lvl Hl]. clearbody ps. split.
    - intros [f' E]. unfold cmd_solve in E. destruct (accepts t p) as [q|] eqn:Ea; [|discriminate].
      destruct (os_tmp1 o) as [z1|] eqn:E1; [|discriminate]. destruct (os_tmp2 o) as [z2|] eqn:E2; [|discriminate].
      cbv zeta in E. change (tool_name t ++ z1 ++ ".lp")%string with (input_name t z1) in E.
      change (tool_name t ++ z2 ++ ".sol")%string with (output_name t z2) in E.
      unfold write_file in E. destruct (os_create o) eqn:Ec; [|discriminate].
      destruct (write_to_lp_file q) as [text|e] eqn:Ew; [|discriminate].
      assert (Hd : forall n, os_disk o = Some n -> String.length text <= n).
      { intros n Ed. rewrite Ed in E. destruct (Nat.ltb_spec n (String.length text)); [discriminate|assumption]. }
      assert (E' : (match os_disk o with Some n => if (n <? String.length text)%nat then (put f (input_name t z1) (substring 0 n text), Ok false)
          else (put f (input_name t z1) text, Ok true) | None => (put f (input_name t z1) text, Ok true) end) = (put f (input_name t z1) text, Ok true)).
      { destruct (os_disk o) as [n|]; [|reflexivity]. specialize (Hd n eq_refl). destruct (Nat.ltb_spec n (String.length text)); [lia|reflexivity]. }
      rewrite E', Hl in E. destruct (os_run _ _ _ _) as [f2 ok] eqn:Er. destruct ok; [|discriminate].
      exists q, z1, z2, text, lvl, f2. destruct (read_sol_file _ _ _ _) as [[r'|]|e] eqn:Es; try discriminate.
      assert (r' = r) by congruence. subst r'. repeat split; auto.
      + destruct t, p; try discriminate; injection Ea as <-; eauto.
      + rewrite <- Es. f_equal. unfold remove. replace (output_name t z2 =? input_name t z1)%string with false; [reflexivity|].
        symmetry. apply String.eqb_neq. intros E3. symmetry in E3. exact (names_differ _ _ _ E3).
    - intros (q & z1 & z2 & text & lvl' & f2 & Hp & E1 & E2 & Ec & Ew & Hd & Hl' & Er & Es).
      assert (Ea : accepts t p = Some q). { destruct Hp as [(l & -> & <-)|[-> ->]]; [destruct t|]; reflexivity. }
      unfold cmd_solve. rewrite Ea, E1, E2. cbv zeta. change (tool_name t ++ z1 ++ ".lp")%string with (input_name t z1).
      change (tool_name t ++ z2 ++ ".sol")%string with (output_name t z2).
      unfold write_file. rewrite Ec, Ew.
      assert (E' : (match os_disk o with Some n => if (n <? String.length text)%nat then (put f (input_name t z1) (substring 0 n text), Ok false)
          else (put f (input_name t z1) text, Ok true) | None => (put f (input_name t z1) text, Ok true) end) = (put f (input_name t z1) text, Ok true)).
      { destruct (os_disk o) as [n|]; [|reflexivity]. specialize (Hd n eq_refl). destruct (Nat.ltb_spec n (String.length text)); [lia|reflexivity]. }
      rewrite E', Hl'. change (tool_name t) with (program t).
      change [input_name t z1; "logLevel"; dec_Z lvl'; "printingOptions"; "all"; "solve"; "solution"; output_name t z2] with (arguments t z1 z2 lvl'). rewrite Er.
      replace (remove f2 (input_name t z1) (output_name t z2)) with (f2 (output_name t z2)).
      2:{ unfold remove. replace (output_name t z2 =? input_name t z1)%string with false; [reflexivity|].
          symmetry. apply String.eqb_neq. intros E3. symmetry in E3. exact (names_differ _ _ _ E3). }
      rewrite Es. eauto.
  Qed.

  (** An error is returned exactly in these cases, with these messages. *)
  Theorem C48_errors t calls ps (p : problem T) o f e : ps = after (match t with Clp => clp_new | Cbc => cbc_new end) calls ->
    ((exists f', cmd_solve t ps p o f = (f', Returns (inr e))) <->
     (~ supported t p /\ e = "problem type not supported" \/
      exists q, ((exists l, p = PLp l /\ lp_milp l = q) \/ t = Cbc /\ p = PMilp q) /\
       (os_tmp1 o = None /\ e = "failed to create input filename" \/
        exists z1, os_tmp1 o = Some z1 /\
         (os_tmp2 o = None /\ e = "failed to create output filename" \/
          exists z2, os_tmp2 o = Some z2 /\
           ((os_create o = false \/ exists text n, os_create o = true /\ write_to_lp_file q = Ok text /\ os_disk o = Some n /\ n < String.length text) /\
            e = "failed to write lp file" \/
            exists text lvl f2 ok, os_create o = true /\ write_to_lp_file q = Ok text /\ (forall n, os_disk o = Some n -> String.length text <= n) /\
             get_param ps "logLevel" = Some (IntParam lvl) /\
             os_run o (program t) (arguments t z1 z2 lvl) (put f (input_name t z1) text) = (f2, ok) /\
             (ok = false /\ e = match t with Clp => "failed executing clp command" | Cbc => "failed executing cbc command" end \/
              ok = true /\
              read_sol_file (f2 (output_name t z2)) (milp_nx q) (milp_na q) (match t with Cbc => true | Clp => false end) = Ok None /\
              e = match t with Clp => "failed to read clp solution file" | Cbc => "failed to read cbc solution file" end)))))).
  Proof.
    intros ->. set (ps := after _ calls).
    assert (Hl : exists lvl, get_param ps "logLevel" = Some (IntParam lvl)).
    { destruct (C47_solvers (T := T) calls) as (A & B & _). destruct t; assumption. }
    destruct Hl as [lvl Hl]. clearbody ps.
    assert (Hacc : forall q, accepts t p = Some q <-> ((exists l, p = PLp l /\ lp_milp l = q) \/ t = Cbc /\ p = PMilp q)).
    { intros q. split.
      - intros Ea. destruct t, p; try discriminate; injection Ea as <-; eauto.
      - intros [(l & -> & <-)|[-> ->]]; [destruct t|]; reflexivity. }
    unfold cmd_solve. destruct (accepts t p) as [q|] eqn:Ea.
    2:{ split.
        - intros [f' E]. injection E as _ <-. left. split; [|reflexivity]. intros Hs. apply accepts_supported in Hs as [q Eq]. congruence.
        - intros [[_ ->]|(q & Hq & _)]; [eauto|]. apply Hacc in Hq. discriminate. }
    assert (Hs : supported t p) by (apply accepts_supported; eauto).
    split.
    - intros [f' E]. right. exists q. split; [apply Hacc; reflexivity|].
      destruct (os_tmp1 o) as [z1|]; [right; exists z1; split; [reflexivity|]|injection E as _ <-; left; auto].
      destruct (os_tmp2 o) as [z2|]; [right; exists z2; split; [reflexivity|]|injection E as _ <-; left; auto].
      cbv zeta in E. change (tool_name t ++ z1 ++ ".lp")%string with (input_name t z1) in E.
      change (tool_name t ++ z2 ++ ".sol")%string with (output_name t z2) in E. change (tool_name t) with (program t) in E.
      unfold write_file in E. destruct (os_create o) eqn:Ec; [|injection E as _ <-; left; auto].
      destruct (write_to_lp_file q) as [text|e'] eqn:Ew; [|discriminate].
      assert (Hd : (exists n, os_disk o = Some n /\ n < String.length text) \/ (forall n, os_disk o = Some n -> String.length text <= n)).
      { destruct (os_disk o) as [n|]; [|right; discriminate]. destruct (Nat.lt_ge_cases n (String.length text)); [left; eauto|].
        right. intros n' En. injection En as <-. assumption. }
      destruct Hd as [(n & Ed & Hn)|Hd].
      + rewrite Ed in E. apply Nat.ltb_lt in Hn. rewrite Hn in E. injection E as _ <-. left. split; [|reflexivity]. right. apply Nat.ltb_lt in Hn. eauto 6.
      + assert (E' : (match os_disk o with Some n => if (n <? String.length text)%nat then (put f (input_name t z1) (substring 0 n text), Ok false)
          else (put f (input_name t z1) text, Ok true) | None => (put f (input_name t z1) text, Ok true) end) = (put f (input_name t z1) text, Ok true)).
        { destruct (os_disk o) as [n|]; [|reflexivity]. specialize (Hd n eq_refl). destruct (Nat.ltb_spec n (String.length text)); [lia|reflexivity]. }
        rewrite E', Hl in E.
        change [input_name t z1; "logLevel"; dec_Z lvl; "printingOptions"; "all"; "solve"; "solution"; output_name t z2] with (arguments t z1 z2 lvl) in E.
        destruct (os_run _ _ _ _) as [f2 ok] eqn:Er. right. exists text, lvl, f2, ok. repeat (split; [auto; fail|]).
        destruct ok; [right|left].
        * split; [reflexivity|].
          assert (Hrd : remove f2 (input_name t z1) (output_name t z2) = f2 (output_name t z2)).
          { unfold remove. replace (output_name t z2 =? input_name t z1)%string with false; [reflexivity|].
            symmetry. apply String.eqb_neq. intros E3. symmetry in E3. exact (names_differ _ _ _ E3). }
          rewrite Hrd in E. destruct (read_sol_file _ _ _ _) as [[r'|]|e'] eqn:Es; try discriminate. injection E as _ <-. split; [reflexivity|]. destruct t; reflexivity.
        * injection E as _ <-. split; [reflexivity|]. destruct t; reflexivity.
    - intros [[Hn _]|(q' & Hq & Hrest)]; [contradiction|]. apply Hacc in Hq. injection Hq as <-.
      destruct Hrest as [[-> ->]|(z1 & -> & Hrest)]; [eauto|]. destruct Hrest as [[-> ->]|(z2 & -> & Hrest)]; [eauto|].
      cbv zeta. change (tool_name t ++ z1 ++ ".lp")%string with (input_name t z1).
      change (tool_name t ++ z2 ++ ".sol")%string with (output_name t z2). change (tool_name t) with (program t). unfold write_file.
      destruct Hrest as [[[->|(text & n & -> & -> & -> & Hn)] ->]|(text & lvl' & f2 & ok & -> & -> & Hd & Hl' & Er & Hrest)].
      + eauto.
      + apply Nat.ltb_lt in Hn. rewrite Hn. eauto.
      + assert (E' : (match os_disk o with Some n => if (n <? String.length text)%nat then (put f (input_name t z1) (substring 0 n text), Ok false)
          else (put f (input_name t z1) text, Ok true) | None => (put f (input_name t z1) text, Ok true) end) = (put f (input_name t z1) text, Ok true)).
        { destruct (os_disk o) as [n|]; [|reflexivity]. specialize (Hd n eq_refl). destruct (Nat.ltb_spec n (String.length text)); [lia|reflexivity]. }
        rewrite E', Hl'.
        change [input_name t z1; "logLevel"; dec_Z lvl'; "printingOptions"; "all"; "solve"; "solution"; output_name t z2] with (arguments t z1 z2 lvl').
        rewrite Er. destruct Hrest as [[-> ->]|(-> & Es & ->)].
        * eexists. f_equal. destruct t; reflexivity.
        * assert (Hrd : remove f2 (input_name t z1) (output_name t z2) = f2 (output_name t z2)).
          { unfold remove. replace (output_name t z2 =? input_name t z1)%string with false; [reflexivity|].
            symmetry. apply String.eqb_neq. intros E3. symmetry in E3. exact (names_differ _ _ _ E3). }
          rewrite Hrd, Es. eexists. f_equal. destruct t; reflexivity.
  Qed.

  (** A call unwinds exactly when writing the problem or reading the solution does
      (C43_returns and C46_panic say when that is). *)
  Theorem C48_unwinds t calls ps (p : problem T) o f e : ps = after (match t with Clp => clp_new | Cbc => cbc_new end) calls ->
    ((exists f', cmd_solve t ps p o f = (f', Unwinds e)) <->
     (exists q z1 z2, ((exists l, p = PLp l /\ lp_milp l = q) \/ t = Cbc /\ p = PMilp q) /\
        os_tmp1 o = Some z1 /\ os_tmp2 o = Some z2 /\ os_create o = true /\
        (write_to_lp_file q = Panic e \/
         exists text lvl f2, write_to_lp_file q = Ok text /\ (forall n, os_disk o = Some n -> String.length text <= n) /\
           get_param ps "logLevel" = Some (IntParam lvl) /\
           os_run o (program t) (arguments t z1 z2 lvl) (put f (input_name t z1) text) = (f2, true) /\
           read_sol_file (f2 (output_name t z2)) (milp_nx q) (milp_na q) (match t with Cbc => true | Clp => false end) = Panic e))).
  Proof.
    intros ->. set (ps := after _ calls).
    assert (Hl : exists lvl, get_param ps "logLevel" = Some (IntParam lvl)).
    { destruct (C47_solvers (T := T) calls) as (A & B & _). destruct t; assumption. }
    destruct Hl as [lvl Hl]. clearbody ps.
    assert (Hacc : forall q, accepts t p = Some q <-> ((exists l, p = PLp l /\ lp_milp l = q) \/ t = Cbc /\ p = PMilp q)).
    { intros q. split.
      - intros Ea. destruct t, p; try discriminate; injection Ea as <-; eauto.
      - intros [(l & -> & <-)|[-> ->]]; [destruct t|]; reflexivity. }
    unfold cmd_solve. split.
    - intros [f' E]. destruct (accepts t p) as [q|]; [|discriminate]. exists q.
      destruct (os_tmp1 o) as [z1|]; [|discriminate]. destruct (os_tmp2 o) as [z2|]; [|discriminate]. exists z1, z2.
      split; [apply Hacc; reflexivity|]. do 2 (split; [reflexivity|]).
      cbv zeta in E. change (tool_name t ++ z1 ++ ".lp")%string with (input_name t z1) in E.
      change (tool_name t ++ z2 ++ ".sol")%string with (output_name t z2) in E. change (tool_name t) with (program t) in E.
      unfold write_file in E. destruct (os_create o) eqn:Ec; [|discriminate]. split; [reflexivity|].
      destruct (write_to_lp_file q) as [text|e'] eqn:Ew; [|injection E as _ <-; left; reflexivity]. right.
      assert (Hd : forall n, os_disk o = Some n -> String.length text <= n).
      { intros n Ed. rewrite Ed in E. destruct (Nat.ltb_spec n (String.length text)); [discriminate|assumption]. }
      assert (E' : (match os_disk o with Some n => if (n <? String.length text)%nat then (put f (input_name t z1) (substring 0 n text), Ok false)
          else (put f (input_name t z1) text, Ok true) | None => (put f (input_name t z1) text, Ok true) end) = (put f (input_name t z1) text, Ok true)).
      { destruct (os_disk o) as [n|]; [|reflexivity]. specialize (Hd n eq_refl). destruct (Nat.ltb_spec n (String.length text)); [lia|reflexivity]. }
      rewrite E', Hl in E.
      change [input_name t z1; "logLevel"; dec_Z lvl; "printingOptions"; "all"; "solve"; "solution"; output_name t z2] with (arguments t z1 z2 lvl) in E.
      destruct (os_run _ _ _ _) as [f2 ok] eqn:Er. destruct ok; [|discriminate]. exists text, lvl, f2. repeat (split; [auto; fail|]).
      assert (Hrd : remove f2 (input_name t z1) (output_name t z2) = f2 (output_name t z2)).
      { unfold remove. replace (output_name t z2 =? input_name t z1)%string with false; [reflexivity|].
        symmetry. apply String.eqb_neq. intros E3. symmetry in E3. exact (names_differ _ _ _ E3). }
      rewrite Hrd in E. destruct (read_sol_file _ _ _ _) as [[r'|]|e'] eqn:Es; try discriminate. injection E as _ <-. reflexivity.
    - intros (q & z1 & z2 & Hq & -> & -> & Ec & Hrest). apply Hacc in Hq. rewrite Hq. cbv zeta.
      change (tool_name t ++ z1 ++ ".lp")%string with (input_name t z1).
      change (tool_name t ++ z2 ++ ".sol")%string with (output_name t z2). change (tool_name t) with (program t). unfold write_file. rewrite Ec.
      destruct Hrest as [->|(text & lvl' & f2 & -> & Hd & Hl' & Er & Es)]; [eauto|].
      assert (E' : (match os_disk o with Some n => if (n <? String.length text)%nat then (put f (input_name t z1) (substring 0 n text), Ok false)
          else (put f (input_name t z1) text, Ok true) | None => (put f (input_name t z1) text, Ok true) end) = (put f (input_name t z1) text, Ok true)).
      { destruct (os_disk o) as [n|]; [|reflexivity]. specialize (Hd n eq_refl). destruct (Nat.ltb_spec n (String.length text)); [lia|reflexivity]. }
      rewrite E', Hl'.
      change [input_name t z1; "logLevel"; dec_Z lvl'; "printingOptions"; "all"; "solve"; "solution"; output_name t z2] with (arguments t z1 z2 lvl').
      rewrite Er.
      assert (Hrd : remove f2 (input_name t z1) (output_name t z2) = f2 (output_name t z2)).
      { unfold remove. replace (output_name t z2 =? input_name t z1)%string with false; [reflexivity|].
        symmetry. apply String.eqb_neq. intros E3. symmetry in E3. exact (names_differ _ _ _ E3). }
      rewrite Hrd, Es. eauto.
  Qed.
End C48.

(** ** Concrete calls *)
#[local] Existing Instance NumF0.
(** Minimise x_0 + 2 x_1 subject to x_0 + x_1 = 4, 0 <= x <= 10. *)
Definition c48_lp : res (lp F) :=
  lp_new [flit 1; flit 2] (mk_coo 1 2 [0; 0] [0; 1] [flit 1; flit 1]) [flit 4] [flit 0; flit 0] [flit 10; flit 10] None.
(** A working directory with one file. *)
Definition c48_files : files := put (fun _ => None) "notes.txt" "keep".
(** An environment whose solver command writes [text] to the output file. *)
Definition c48_sys (text : string) : osys :=
  mk_osys (Some "A1") (Some "B2") true None (fun _ args f => (put f (last args "") text, true)).
Definition c48_text : string :=
  ("optimal" ++ nls ++ "Objective value 4" ++ nls ++ "0 c_0 4 1" ++ nls ++ "0 x_0 4 0" ++ nls ++ "1 x_1 0 1" ++ nls)%string.
Definition c48_bad : string := ("optimal" ++ nls ++ "Objective value 4" ++ nls ++ "0 x_7 4 0" ++ nls)%string.

Lemma c48_confined text : confined (c48_sys text).
Proof. intros cmd args f n _ Hn. cbn. unfold put. apply String.eqb_neq in Hn. rewrite Hn. reflexivity. Qed.

Example C48_example :
  match c48_lp with
  | Ok p =>
    let '(f, r) := cmd_solve Clp clp_new (PLp p) (c48_sys c48_text) c48_files in
    r = Returns (inl (Solved, mk_sol [flit 4; flit 0] [flit 1] [] [S754_zero true; flit 0] [flit 0; flit 1])) /\
    map f ["notes.txt"; "clpA1.lp"; "clpB2.sol"] = [Some "keep"; None; None]
  | Panic _ => False
  end.
Proof. vm_compute. auto. Qed.

(** The claim that solve leaves no file behind has two limits.  The map of
    parameters can be emptied through [get_params_mut]; then the input file stays. *)
Theorem C48_missing_parameter_refuted :
  exists (p : problem F) ps o, confined o /\ supported Clp p /\
    exists f' e, cmd_solve Clp ps p o c48_files = (f', Returns (inr e)) /\ f' "clpA1.lp" <> None.
Proof.
  destruct c48_lp as [p|e] eqn:E; [|discriminate E].
  exists (PLp p), [], (c48_sys c48_text). split; [apply c48_confined|]. split; [exact I|].
  injection E as <-. eexists. exists "unable to get parameter logLevel". vm_compute. split; [reflexivity|discriminate].
Qed.
(** And when reading the solution file panics, the output file stays. *)
Theorem C48_panic_refuted :
  exists (p : problem F) o, confined o /\ supported Clp p /\
    exists f' e, cmd_solve Clp clp_new p o c48_files = (f', Unwinds e) /\ f' "clpB2.sol" <> None.
Proof.
  destruct c48_lp as [p|e] eqn:E; [|discriminate E].
  exists (PLp p), (c48_sys c48_bad). split; [apply c48_confined|]. split; [exact I|].
  injection E as <-. eexists. eexists. vm_compute. split; [reflexivity|discriminate].
Qed.
