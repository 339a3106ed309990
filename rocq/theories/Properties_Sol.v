(** C45, C46: reading solution files. *)
From Verif Require Import Base Num Matrix Problem ModelStd Text LpFile SolFile MatrixProofs TextProofs SolSpec.
From Coq Require Import NArith Floats.SpecFloat.
Local Open Scope string_scope.
Local Open Scope list_scope.

Section Sol.
  Context {T : Type} `{Num T} `{NumText T}.

  Lemma first_status_header cbc l : first_status cbc (words l) = header cbc l.
  Proof.
    unfold first_status, header. destruct (words l) as [|w ws]; [reflexivity|].
    destruct cbc; cbn [negb andb]; reflexivity.
  Qed.

  (** The reader's view of one line. *)
  Definition line_record (l : string) : option (record T) :=
    if negb (utf8_valid l) then None else
    match words l with
    | _ :: name :: value :: mul :: _ =>
      match read_num value, read_num mul with
      | Some v, Some m =>
        match split_on "_" name with
        | a :: idx :: _ =>
          match parse_usize idx with
          | Some i => if (a =? "x")%string then Some (RVar i v m) else if (a =? "c")%string then Some (RRow i m) else None
          | None => None
          end
        | _ => None
        end
      | _, _ => None
      end
    | _ => None
    end.
  Lemma line_record_says l r : line_record l = Some r <-> says l r.
  Proof.
    unfold line_record, says. split.
    - destruct (utf8_valid l); [|discriminate]. cbn [negb]. intros E. split; [reflexivity|].
      destruct (words l) as [|w0 [|name [|value [|mul more]]]]; try discriminate.
      destruct (read_num value) as [v|] eqn:Ev; [|discriminate]. destruct (read_num mul) as [m|] eqn:Em; [|discriminate].
      destruct (split_on "_" name) as [|a [|idx rest]] eqn:Es; try discriminate.
      destruct (parse_usize idx) as [i|] eqn:Ei; [|discriminate].
      exists w0, name, value, mul, more, a, idx, rest, v, m. repeat split; auto.
      destruct (String.eqb_spec a "x") as [->|_]; [injection E as <-; auto|].
      destruct (String.eqb_spec a "c") as [->|_]; [injection E as <-; auto|discriminate].
    - intros (-> & w0 & name & value & mul & more & a & idx & rest & v & m & -> & Es & Ev & Em & Hr). cbn [negb].
      rewrite Ev, Em, Es. destruct r as [i v' m'|k m'].
      + destruct Hr as (-> & -> & -> & ->). reflexivity.
      + destruct Hr as (-> & -> & ->). reflexivity.
  Qed.
  Lemma says_det l r r' : says l r -> says l r' -> r = r'.
  Proof. rewrite <- !line_record_says. congruence. Qed.
  Lemma malformed_none l : malformed l <-> line_record l = None.
  Proof.
    unfold malformed. split.
    - intros Hm. destruct (line_record l) eqn:E; [|reflexivity]. apply line_record_says in E. destruct (Hm _ E).
    - intros E r Hs. apply line_record_says in Hs. congruence.
  Qed.
  Lemma says_or_malformed l : malformed l \/ exists r, says l r.
  Proof.
    destruct (line_record l) as [r|] eqn:E; [right; exists r; apply line_record_says; auto|left; apply malformed_none; auto].
  Qed.

  Lemma final_snoc (f : record T -> list T) rs r : final f (rs ++ [r]) = match f r with [] => final f rs | l => last l n0 end.
  Proof.
    unfold final. rewrite flat_map_app. cbn. rewrite app_nil_r. destruct (f r) as [|a l]; [rewrite app_nil_r; reflexivity|].
    generalize (flat_map f rs). intros pre. induction pre as [|b pre IH]; [reflexivity|]. rewrite <- app_comm_cons. cbn [last].
    destruct (pre ++ a :: l) eqn:E; [destruct pre; discriminate|]. rewrite <- E in *. rewrite E in IH. rewrite E. exact IH.
  Qed.

  Lemma sol_line_range nx na rs l r : says l r -> in_range nx na r ->
    sol_line (listed nx na rs) l = Ok (Some (listed nx na (rs ++ [r]))).
  Proof.
    intros (Hu & w0 & name & value & mul & more & a & idx & rest & v & m & Ew & Es & Ev & Em & Hr) Hi.
    unfold sol_line. rewrite Hu, Ew, Ev, Em, Es. cbn [negb]. destruct r as [i v' m'|k m'].
    - destruct Hr as (-> & -> & -> & ->). cbn [in_range] in Hi. cbn [String.eqb Ascii.eqb Bool.eqb].
      cbn [listed s_x s_lam s_nu s_mu s_pi].
      rewrite (vset_map_seq _ (fun j => final (value_of j) (rs ++ [RVar i v m]))); auto.
      2:{ rewrite final_snoc. cbn. rewrite Nat.eqb_refl. reflexivity. }
      2:{ intros j Hj. rewrite final_snoc. cbn. apply Nat.eqb_neq in Hj. rewrite Hj. reflexivity. }
      cbn [rbind].
      destruct (nltb n0 m) eqn:Ep.
      + rewrite (vset_map_seq _ (fun j => final (pos_of j) (rs ++ [RVar i v m]))); auto.
        2:{ rewrite final_snoc. cbn. rewrite Nat.eqb_refl, Ep. reflexivity. }
        2:{ intros j Hj. rewrite final_snoc. cbn. apply Nat.eqb_neq in Hj. rewrite Hj. reflexivity. }
        cbn [rbind]. do 2 f_equal. unfold listed. f_equal; apply map_ext; intros j; rewrite final_snoc; cbn.
        * reflexivity.
        * rewrite Ep, andb_false_r. reflexivity.
      + rewrite (vset_map_seq _ (fun j => final (neg_of j) (rs ++ [RVar i v m]))); auto.
        2:{ rewrite final_snoc. cbn. rewrite Nat.eqb_refl, Ep. reflexivity. }
        2:{ intros j Hj. rewrite final_snoc. cbn. apply Nat.eqb_neq in Hj. rewrite Hj. reflexivity. }
        cbn [rbind]. do 2 f_equal. unfold listed. f_equal; apply map_ext; intros j; rewrite final_snoc; cbn.
        * reflexivity.
        * rewrite Ep, andb_false_r. reflexivity.
    - destruct Hr as (-> & -> & ->). cbn [in_range] in Hi. cbn [String.eqb Ascii.eqb Bool.eqb].
      cbn [listed s_x s_lam s_nu s_mu s_pi].
      rewrite (vset_map_seq _ (fun j => final (row_mul_of j) (rs ++ [RRow k m]))); auto.
      2:{ rewrite final_snoc. cbn. rewrite Nat.eqb_refl. reflexivity. }
      2:{ intros j Hj. rewrite final_snoc. cbn. apply Nat.eqb_neq in Hj. rewrite Hj. reflexivity. }
      cbn [rbind]. do 2 f_equal. unfold listed. f_equal; apply map_ext; intros j; rewrite final_snoc; reflexivity.
  Qed.
  Lemma sol_line_out nx na rs l r : says l r -> ~ in_range nx na r -> sol_line (listed nx na rs) l = Panic PIndex.
  Proof.
    intros (Hu & w0 & name & value & mul & more & a & idx & rest & v & m & Ew & Es & Ev & Em & Hr) Hi.
    unfold sol_line. rewrite Hu, Ew, Ev, Em, Es. cbn [negb]. destruct r as [i v' m'|k m'].
    - destruct Hr as (-> & -> & -> & ->). cbn [String.eqb Ascii.eqb Bool.eqb]. rewrite vset_panic; [reflexivity|].
      cbn [listed s_x]. rewrite map_length, seq_length. cbn in Hi. lia.
    - destruct Hr as (-> & -> & ->). cbn [String.eqb Ascii.eqb Bool.eqb]. rewrite vset_panic; [reflexivity|].
      cbn [listed s_lam]. rewrite map_length, seq_length. cbn in Hi. lia.
  Qed.
  Lemma sol_line_malformed s l : malformed l -> sol_line s l = Ok None.
  Proof.
    intros Hm. apply malformed_none in Hm. unfold line_record in Hm. unfold sol_line. destruct (utf8_valid l); [|reflexivity]. cbn [negb] in *.
    destruct (words l) as [|w0 [|name [|value [|mul more]]]]; try reflexivity.
    destruct (read_num value) as [v|]; [|reflexivity]. destruct (read_num mul) as [m|]; [|reflexivity].
    destruct (split_on "_" name) as [|a [|idx rest]]; try reflexivity.
    destruct (parse_usize idx) as [i|]; [|reflexivity]. destruct (a =? "x")%string; [discriminate|].
    destruct (a =? "c")%string; [discriminate|]. reflexivity.
  Qed.

  (** The three ways a list of lines can be. *)
  Inductive outcome_lines (nx na : nat) : list string -> res (option (list (record T))) -> Prop :=
  | ol_all ls rs : Forall2 says ls rs -> Forall (in_range nx na) rs -> outcome_lines nx na ls (Ok (Some rs))
  | ol_bad ls rs l more : Forall2 says ls rs -> Forall (in_range nx na) rs -> malformed l ->
      outcome_lines nx na (ls ++ l :: more) (Ok None)
  | ol_out ls rs l r more : Forall2 says ls rs -> Forall (in_range nx na) rs -> says l r -> ~ in_range nx na r ->
      outcome_lines nx na (ls ++ l :: more) (Panic PIndex).

  Lemma in_range_dec nx na (r : record T) : {in_range nx na r} + {~ in_range nx na r}.
  Proof. destruct r as [i v m|k m]; cbn; [destruct (lt_dec i nx)|destruct (lt_dec k na)]; auto. Qed.
  Lemma outcome_exists nx na ls : exists o, outcome_lines nx na ls o.
  Proof.
    induction ls as [|l ls [o IH]]; [exists (Ok (Some [])); constructor; constructor|].
    destruct (says_or_malformed l) as [Hm|[r Hr]].
    - exists (Ok None). apply (ol_bad nx na [] [] l ls); auto.
    - destruct (in_range_dec nx na r) as [Hi|Hi].
      + inversion IH as [ls' rs Hs Hf|ls' rs l' more Hs Hf Hm|ls' rs l' r' more Hs Hf Hr' Ho]; subst.
        * exists (Ok (Some (r :: rs))). constructor; constructor; auto.
        * exists (Ok None). rewrite app_comm_cons. apply (ol_bad nx na (l :: ls') (r :: rs)); auto.
        * exists (Panic PIndex). rewrite app_comm_cons. apply (ol_out nx na (l :: ls') (r :: rs) l' r'); auto.
      + exists (Panic PIndex). apply (ol_out nx na [] [] l r); auto.
  Qed.
  Lemma sol_lines_app nx na ls rs' : Forall2 says ls rs' -> forall rs more, Forall (in_range nx na) rs' ->
    sol_lines (listed nx na rs) (ls ++ more) = sol_lines (listed nx na (rs ++ rs')) more.
  Proof.
    induction 1 as [|l r ls rs' Hl Hs IH]; intros rs more Hf; [rewrite app_nil_r; reflexivity|].
    inversion Hf; subst. cbn [sol_lines app]. rewrite (sol_line_range nx na rs l r) by auto. cbn [rbind].
    rewrite IH by auto. rewrite <- app_assoc. reflexivity.
  Qed.
  Lemma sol_lines_outcome nx na ls o : outcome_lines nx na ls o ->
    sol_lines (listed nx na []) ls = match o with
                                     | Ok (Some rs) => Ok (Some (listed nx na rs)) | Ok None => Ok None | Panic e => Panic e
                                     end.
  Proof.
    intros [ls' rs Hs Hf|ls' rs l more Hs Hf Hm|ls' rs l r more Hs Hf Hr Ho].
    - rewrite <- (app_nil_r ls'), (sol_lines_app nx na ls' rs Hs [] []) by auto. reflexivity.
    - rewrite (sol_lines_app nx na ls' rs Hs) by auto. cbn [sol_lines app]. rewrite sol_line_malformed by auto. reflexivity.
    - rewrite (sol_lines_app nx na ls' rs Hs) by auto. cbn [sol_lines app]. rewrite (sol_line_out _ _ _ _ r) by auto. reflexivity.
  Qed.
  Lemma listed_nil nx na : listed nx na [] = zeros nx na.
  Proof. unfold listed, zeros. rewrite !repeat_map_seq. reflexivity. Qed.
  Lemma outcome_det nx na ls o o' : outcome_lines nx na ls o -> outcome_lines nx na ls o' ->
    match o, o' with Ok (Some _), Ok (Some _) | Ok None, Ok None | Panic _, Panic _ => True | _, _ => False end.
  Proof.
    intros A B. apply sol_lines_outcome in A, B. rewrite A in B.
    destruct o as [[rs|]|e], o' as [[rs'|]|e']; auto; discriminate.
  Qed.

  (** The parts of a file: the first line, the second one when it is an
      objective line, and the lines after. *)
  Definition part1 (text : string) : string := fst (cut_line text).
  Definition part2 (cbc : bool) (text : string) : string := if cbc then "" else fst (cut_line (snd (cut_line text))).
  Definition body (cbc : bool) (text : string) : list string :=
    lines (if cbc then snd (cut_line text) else snd (cut_line (snd (cut_line text)))).

  Lemma read_cases cbc nx na text :
    read_sol_file (Some text) nx na cbc =
    if negb (utf8_valid (part1 text)) then Ok None else
    match header cbc (part1 text) with
    | Solved => if negb (utf8_valid (part2 cbc text)) then Ok None else
                match sol_lines (listed nx na []) (body cbc text) with
                | Ok (Some s) => Ok (Some (Solved, s)) | Ok None => Ok None | Panic e => Panic e
                end
    | st => Ok (Some (st, zeros nx na))
    end.
  Proof.
    unfold read_sol_file, part1, part2, body. rewrite listed_nil.
    destruct (cut_line text) as [l1 rest]. cbn [fst snd]. destruct (utf8_valid l1); [|reflexivity]. cbn [negb].
    rewrite first_status_header. change (sol_new nx na 0) with (@zeros T _ nx na).
    destruct (header cbc l1); try reflexivity.
    destruct cbc; [|destruct (cut_line rest) as [l2 rest2]; cbn [fst snd]; destruct (utf8_valid l2); [|reflexivity]]; cbn [negb utf8_valid].
    all: destruct (sol_lines _ _) as [[s|]|e]; reflexivity.
  Qed.

  (** Success: exactly when every line after the header is well formed and about
      an item of the problem; the solution is what the lines list. *)
  Theorem C45_solved cbc nx na text s :
    read_sol_file (Some text) nx na cbc = Ok (Some (Solved, s)) <->
    utf8_valid (part1 text) = true /\ header cbc (part1 text) = Solved /\ utf8_valid (part2 cbc text) = true /\
    exists rs, Forall2 says (body cbc text) rs /\ Forall (in_range nx na) rs /\ s = listed nx na rs.
  Proof.
    rewrite read_cases. destruct (utf8_valid (part1 text)); cbn [negb]; [|split; [discriminate|intros (E & _); discriminate]].
    destruct (header cbc (part1 text)); try (split; [discriminate|intros (_ & E & _); discriminate]).
    destruct (utf8_valid (part2 cbc text)); cbn [negb]; [|split; [discriminate|intros (_ & _ & E & _); discriminate]].
    destruct (outcome_exists nx na (body cbc text)) as [o Ho]. rewrite (sol_lines_outcome _ _ _ _ Ho). split.
    - destruct o as [[rs|]|e]; try discriminate. intros E. injection E as <-. repeat split; auto. exists rs. inversion Ho; auto.
    - intros (_ & _ & _ & rs & Hs & Hf & ->). pose proof (sol_lines_outcome _ _ _ _ (ol_all nx na _ _ Hs Hf)) as E.
      rewrite (sol_lines_outcome _ _ _ _ Ho) in E. cbn in E. rewrite E. reflexivity.
  Qed.

  (** Any other first word: the status it stands for and an all-zero solution,
      whatever follows. *)
  Theorem C45_not_solved cbc nx na text : utf8_valid (part1 text) = true -> header cbc (part1 text) <> Solved ->
    read_sol_file (Some text) nx na cbc = Ok (Some (header cbc (part1 text), zeros nx na)).
  Proof. intros Hu Hh. rewrite read_cases, Hu. cbn [negb]. destruct (header cbc (part1 text)); congruence. Qed.
  Theorem C45_missing_file cbc nx na : read_sol_file None nx na cbc = Ok (Some (Error, zeros nx na)).
  Proof. reflexivity. Qed.

  (** An error: exactly when a part is not text or a line is malformed, and the
      lines before it are all about items of the problem. *)
  Theorem C45_error cbc nx na text :
    read_sol_file (Some text) nx na cbc = Ok None <->
    utf8_valid (part1 text) = false \/
    header cbc (part1 text) = Solved /\
    (utf8_valid (part2 cbc text) = false \/
     exists pre rs l post, body cbc text = pre ++ l :: post /\ Forall2 says pre rs /\ Forall (in_range nx na) rs /\ malformed l).
  Proof.
    rewrite read_cases. destruct (utf8_valid (part1 text)); cbn [negb]; [|tauto].
    destruct (header cbc (part1 text)); try (split; [discriminate|intros [E|[E _]]; discriminate]).
    destruct (utf8_valid (part2 cbc text)); cbn [negb]; [|tauto].
    destruct (outcome_exists nx na (body cbc text)) as [o Ho]. rewrite (sol_lines_outcome _ _ _ _ Ho). split.
    - destruct o as [[rs|]|e]; try discriminate. intros _. right. split; [reflexivity|]. right. inversion Ho; subst. eauto 8.
    - intros [E|[_ [E|(pre & rs & l & post & Eb & Hs & Hf & Hm)]]]; try discriminate. rewrite Eb in Ho.
      pose proof (outcome_det _ _ _ _ _ Ho (ol_bad nx na _ _ _ _ Hs Hf Hm)) as D. destruct o as [[rs'|]|e]; tauto.
  Qed.

  (** C46: the reader panics exactly on a well-formed line about an item the
      problem does not have, when no earlier line stops it. *)
  Theorem C46_panic cbc nx na text e :
    read_sol_file (Some text) nx na cbc = Panic e <->
    e = PIndex /\ utf8_valid (part1 text) = true /\ header cbc (part1 text) = Solved /\ utf8_valid (part2 cbc text) = true /\
    exists pre rs l r post, body cbc text = pre ++ l :: post /\ Forall2 says pre rs /\ Forall (in_range nx na) rs /\
      says l r /\ ~ in_range nx na r.
  Proof.
    rewrite read_cases. destruct (utf8_valid (part1 text)); cbn [negb]; [|split; [discriminate|intros (_ & E & _); discriminate]].
    destruct (header cbc (part1 text)); try (split; [discriminate|intros (_ & _ & E & _); discriminate]).
    destruct (utf8_valid (part2 cbc text)); cbn [negb]; [|split; [discriminate|intros (_ & _ & _ & E & _); discriminate]].
    destruct (outcome_exists nx na (body cbc text)) as [o Ho]. rewrite (sol_lines_outcome _ _ _ _ Ho). split.
    - destruct o as [[rs|]|e']; try discriminate. intros E. injection E as ->. inversion Ho; subst. repeat split; auto. eauto 12.
    - intros (-> & _ & _ & _ & pre & rs & l & r & post & Eb & Hs & Hf & Hr & Hn). rewrite Eb in Ho.
      pose proof (sol_lines_outcome _ _ _ _ Ho) as E1. rewrite (sol_lines_outcome _ _ _ _ (ol_out nx na _ _ _ _ post Hs Hf Hr Hn)) in E1.
      destruct o as [[rs'|]|e']; congruence.
  Qed.
  (** In particular it never panics on a file about items of the problem only. *)
  Theorem C46_in_range cbc nx na content :
    (forall text l r, content = Some text -> In l (body cbc text) -> says l r -> in_range nx na r) ->
    exists r, read_sol_file content nx na cbc = Ok r.
  Proof.
    intros Hr. destruct (read_sol_file content nx na cbc) as [r|e] eqn:E; [eauto|]. destruct content as [text|]; [|discriminate].
    apply C46_panic in E as (_ & _ & _ & _ & pre & rs & l & r & post & Eb & _ & _ & Hs & Hn). destruct Hn.
    apply (Hr text l); auto. rewrite Eb. apply in_elt.
  Qed.

  (** The result item by item. *)
  Lemma final_unlisted (f : record T -> list T) rs : (forall r, In r rs -> f r = []) -> final f rs = n0.
  Proof.
    intros Hf. unfold final. replace (flat_map f rs) with (@nil T); [reflexivity|]. symmetry.
    induction rs as [|r rs IH]; [reflexivity|]. cbn. rewrite Hf by (left; reflexivity). apply IH. intros r' Hr'. apply Hf. right; auto.
  Qed.
  Lemma final_unique (f : record T -> list T) rs r v : In r rs -> f r = [v] -> (forall r', In r' rs -> f r' = [] \/ f r' = [v]) -> final f rs = v.
  Proof.
    intros Hin Hf Hall. unfold final.
    assert (G : exists n, flat_map f rs = repeat v (S n)).
    { assert (G0 : exists n, flat_map f rs = repeat v n).
      { clear Hin. induction rs as [|a rs IH]; [exists 0%nat; reflexivity|]. destruct IH as [n En]; [intros; apply Hall; right; auto|].
        cbn. rewrite En. destruct (Hall a (or_introl eq_refl)) as [->| ->]; [exists n|exists (S n)]; reflexivity. }
      destruct G0 as [[|n] En]; [|eauto]. exfalso. assert (In v (flat_map f rs)) as Hv by (apply in_flat_map; exists r; rewrite Hf; split; [auto|left; reflexivity]).
      rewrite En in Hv. destruct Hv. }
    destruct G as [n ->]. induction n as [|n IH]; [reflexivity|]. exact IH.
  Qed.
  Theorem C45_items nx na rs :
    (forall i v m, In (RVar i v m) rs -> i < nx -> (forall v' m', In (RVar i v' m') rs -> v' = v /\ m' = m) ->
       nth_error (s_x (listed nx na rs)) i = Some v /\
       nth_error (s_pi (listed nx na rs)) i = Some (if nltb n0 m then m else n0) /\
       nth_error (s_mu (listed nx na rs)) i = Some (if nltb n0 m then n0 else nneg m)) /\
    (forall i, i < nx -> (forall v m, ~ In (RVar i v m) rs) ->
       nth_error (s_x (listed nx na rs)) i = Some n0 /\ nth_error (s_pi (listed nx na rs)) i = Some n0 /\
       nth_error (s_mu (listed nx na rs)) i = Some n0) /\
    (forall k m, In (RRow k m) rs -> k < na -> (forall m', In (RRow k m') rs -> m' = m) ->
       nth_error (s_lam (listed nx na rs)) k = Some m) /\
    (forall k, k < na -> (forall m, ~ In (RRow k m) rs) -> nth_error (s_lam (listed nx na rs)) k = Some n0) /\
    length (s_x (listed nx na rs)) = nx /\ length (s_pi (listed nx na rs)) = nx /\ length (s_mu (listed nx na rs)) = nx /\
    length (s_lam (listed nx na rs)) = na /\ s_nu (listed nx na rs) = [].
  Proof.
    assert (N : forall (f : nat -> T) n i, i < n -> nth_error (map f (seq 0 n)) i = Some (f i)).
    { intros f n i Hi. rewrite (map_nth_error f i (seq 0 n) (nth_error_seq 0 n i Hi)). reflexivity. }
    unfold listed. cbn [s_x s_pi s_mu s_lam s_nu]. rewrite !map_length, !seq_length.
    split; [|split; [|split; [|split; [|repeat split]]]].
    - intros i v m Hin Hi Hu. rewrite !N by auto.
      assert (O : forall f : record T -> list T, (forall k m', f (RRow k m') = []) -> (forall j v' m', j <> i -> f (RVar j v' m') = []) ->
                    forall l, f (RVar i v m) = l -> forall r', In r' rs -> f r' = [] \/ f r' = l).
      { intros f F1 F2 l Fl [j v' m'|k m'] Hr'; [|left; auto]. destruct (Nat.eq_dec j i) as [->|Hj]; [|left; auto].
        destruct (Hu _ _ Hr') as [-> ->]. auto. }
      assert (NE : forall j : nat, j <> i -> (i =? j)%nat = false) by (intros j Hj; apply Nat.eqb_neq; auto).
      repeat split; f_equal.
      + apply (final_unique _ _ _ _ Hin); [cbn; rewrite Nat.eqb_refl; reflexivity|]. apply O; cbn; auto.
        * intros j v' m' Hj. rewrite (NE j Hj). reflexivity.
        * rewrite Nat.eqb_refl. reflexivity.
      + destruct (nltb n0 m) eqn:Ep.
        * apply (final_unique _ _ _ _ Hin); [cbn; rewrite Nat.eqb_refl, Ep; reflexivity|]. apply O; cbn; auto.
          -- intros j v' m' Hj. rewrite (NE j Hj). reflexivity.
          -- rewrite Nat.eqb_refl, Ep. reflexivity.
        * apply final_unlisted. intros r' Hr'. destruct (O (pos_of i)) with (l := @nil T) (r' := r'); cbn; auto.
          -- intros j v' m' Hj. rewrite (NE j Hj). reflexivity.
          -- rewrite Nat.eqb_refl, Ep. reflexivity.
      + destruct (nltb n0 m) eqn:Ep.
        * apply final_unlisted. intros r' Hr'. destruct (O (neg_of i)) with (l := @nil T) (r' := r'); cbn; auto.
          -- intros j v' m' Hj. rewrite (NE j Hj). reflexivity.
          -- rewrite Nat.eqb_refl, Ep. reflexivity.
        * apply (final_unique _ _ _ _ Hin); [cbn; rewrite Nat.eqb_refl, Ep; reflexivity|]. apply O; cbn; auto.
          -- intros j v' m' Hj. rewrite (NE j Hj). reflexivity.
          -- rewrite Nat.eqb_refl, Ep. reflexivity.
    - intros i Hi Hu. rewrite !N by auto.
      repeat split; f_equal; apply final_unlisted; intros [j v m|k m] Hr; cbn; auto;
        (destruct (Nat.eqb_spec i j) as [->|_]; [destruct (Hu _ _ Hr)|reflexivity]).
    - intros k m Hin Hk Hu. rewrite N by auto. f_equal. apply (final_unique _ _ _ _ Hin); [cbn; rewrite Nat.eqb_refl; reflexivity|].
      intros [j v' m'|j m'] Hr'; cbn; auto. destruct (Nat.eqb_spec k j) as [<-|_]; [|auto]. right. f_equal. apply Hu; auto.
    - intros k Hk Hu. rewrite N by auto. f_equal. apply final_unlisted. intros [j v' m'|j m'] Hr'; cbn; auto.
      destruct (Nat.eqb_spec k j) as [<-|_]; [destruct (Hu _ Hr')|reflexivity].
  Qed.

  (** Lines as the solvers write them, with the names of the LP file. *)
  Lemma split_name c i : (c =? "_")%char = false -> split_on "_" (String c ("_" ++ dec_nat i)) = [String c ""; dec_nat i].
  Proof.
    intros Hc. cbn [split_on append]. rewrite Hc. cbn [Ascii.eqb Bool.eqb]. rewrite split_on_free; [reflexivity|].
    apply dec_free. intros d Hd. assert (G : In d [0;1;2;3;4;5;6;7;8;9]%N) by (cbn; lia).
    cbn in G. repeat destruct G as [<-|G]; try reflexivity. destruct G.
  Qed.
  Theorem C45_column l w0 i v m value mul more : utf8_valid l = true -> (N.of_nat i < 2 ^ 64)%N ->
    words l = w0 :: ("x_" ++ dec_nat i)%string :: v :: m :: more -> read_num v = Some value -> read_num m = Some mul ->
    says l (RVar i value mul).
  Proof.
    intros Hu Hi Hw Hv Hm. split; [exact Hu|].
    exists w0, ("x_" ++ dec_nat i)%string, v, m, more, "x", (dec_nat i), [], value, mul.
    repeat split; auto; [exact (split_name "x" i eq_refl)|apply parse_usize_dec; auto].
  Qed.
  Theorem C45_row l w0 k v m value mul more : utf8_valid l = true -> (N.of_nat k < 2 ^ 64)%N ->
    words l = w0 :: ("c_" ++ dec_nat k)%string :: v :: m :: more -> read_num v = Some value -> read_num m = Some mul ->
    says l (RRow k mul).
  Proof.
    intros Hu Hi Hw Hv Hm. split; [exact Hu|].
    exists w0, ("c_" ++ dec_nat k)%string, v, m, more, "c", (dec_nat k), [], value, mul.
    repeat split; auto; [exact (split_name "c" k eq_refl)|apply parse_usize_dec; auto].
  Qed.

  (** The parts of a file made of given lines. *)
  Theorem C45_parts (cbc : bool) h o ls : no_nl h = true -> no_nl o = true -> forallb no_nl ls = true ->
    let text := (h ++ nls ++ (if cbc then "" else o ++ nls) ++ unlines ls)%string in
    part1 text = (h ++ nls)%string /\ part2 cbc text = (if cbc then "" else o ++ nls)%string /\ body cbc text = ls.
  Proof.
    intros Hh Ho Hl text. unfold part1, part2, body, text. rewrite cut_line_nl by exact Hh. cbn [fst snd].
    destruct cbc; cbn [append].
    - split; [reflexivity|]. split; [reflexivity|]. apply lines_unlines. exact Hl.
    - rewrite app_assoc_s, cut_line_nl by exact Ho. cbn [fst snd]. split; [reflexivity|]. split; [reflexivity|]. apply lines_unlines. exact Hl.
  Qed.
End Sol.

(** ** Concrete files *)
Definition c45_text : string :=
  ("Optimal - objective value 4.00000000" ++ nls ++
   unlines ["      0 c_0                       4                       1";
            "      1 x_1                       0.5                     -2.5e0";
            "      0 x_0                       4                       0.25"])%string.
Example C45_example :
  @read_sol_file F NumF0 TextF (Some c45_text) 3 2 true =
  Ok (Some (Solved, mk_sol [flit 4; S754_finite false 4503599627370496 (-53); flit 0] [flit 1; flit 0] []
                           [flit 0; S754_finite false 5629499534213120 (-51); flit 0]
                           [S754_finite false 4503599627370496 (-54); flit 0; flit 0])) /\
  @read_sol_file F NumF0 TextF (Some "Infeasible") 1 1 true = Ok (Some (Infeasible, @zeros F NumF0 1 1)) /\
  @read_sol_file F NumF0 TextF (Some ("Optimal" ++ nls ++ "0 x_0 1 0" ++ nls ++ "1 x_1 huh 0"))%string 2 0 true = Ok None.
Proof. vm_compute. auto. Qed.

(** C46 is false of the code: a file naming a variable the problem does not have. *)
Theorem C46_refuted : exists text, @read_sol_file F NumF0 TextF (Some text) 2 1 true = Panic PIndex.
Proof. exists ("Optimal" ++ nls ++ "0 x_7 1 0" ++ nls)%string. vm_compute. reflexivity. Qed.
