(** Property C52: the displayed text of an expression, read as arithmetic, denotes it. *)
From Verif Require Import Base Num Node NodeInd Constraint ModelStd ExprSpec Api ApiProofs Properties_Expr Text TextProofs Display DispSpec SolverBase.
From Coq Require Import Reals Lra.

(** ** Lexing *)
Definition starts_apart (s : string) : Prop := match s with EmptyString => True | String c _ => ~ plain c end.
Lemma lex_sym c t s : symbol c = Some t -> lex (String c s) = t :: lex s.
Proof. intros E. unfold lex. cbn [lexw]. destruct (lexw s) as [w ts]. rewrite E. destruct w; reflexivity. Qed.
Lemma lex_space s : lex (String " " s) = lex s.
Proof. unfold lex. cbn [lexw]. destruct (lexw s) as [w ts]. destruct w; reflexivity. Qed.
Lemma apart_lexw s : starts_apart s -> fst (lexw s) = EmptyString.
Proof.
  destruct s as [|c s]; [reflexivity|]. cbn [starts_apart lexw]. intros Hp. destruct (lexw s) as [w ts].
  destruct (symbol c) eqn:E; [reflexivity|]. destruct (c =? " ")%char eqn:Ec; [reflexivity|].
  exfalso. apply Hp. split; [exact E|]. apply Ascii.eqb_neq. exact Ec.
Qed.
Lemma lex_word w s : is_word w -> starts_apart s -> lex (w ++ s) = TWord w :: lex s.
Proof.
  intros [Hn Hp] Hs. pose proof (apart_lexw s Hs) as Es.
  assert (G : lexw (w ++ s) = (w, lex s)).
  { clear Hn. induction w as [|c w IH]; cbn [append lexw].
    - unfold lex. destruct (lexw s) as [w ts]. cbn in Es. subst w. reflexivity.
    - rewrite IH by (intros; apply Hp; right; assumption). destruct (Hp c (or_introl eq_refl)) as [P1 P2]. rewrite P1.
      apply Ascii.eqb_neq in P2. rewrite P2. reflexivity. }
  unfold lex at 1. rewrite G. destruct w; [congruence|reflexivity].
Qed.

(** ** The reader is a function *)
Section Fuel.
  Context {T : Type} `{Num T}.
  Variables (num env : string -> option T).
  Notation expr := (expr num env). Notation term := (term num env). Notation sums := (sums num env).
  Notation products := (products num env). Notation factor := (factor num env).
  Lemma expr_S n ts : expr (S n) ts = match term n ts with Some (v, r) => sums n v r | None => None end.
  Proof. reflexivity. Qed.
  Lemma term_S n ts : term (S n) ts = match factor n ts with Some (v, r) => products n v r | None => None end.
  Proof. reflexivity. Qed.
  Lemma sums_S n acc ts : sums (S n) acc ts =
      match ts with
      | TPlus :: ts => match term n ts with Some (v, r) => sums n (nadd acc v) r | None => None end
      | _ => Some (acc, ts)
      end.
  Proof. reflexivity. Qed.
  Lemma products_S n acc ts : products (S n) acc ts =
      match ts with
      | TStar :: ts => match factor n ts with Some (v, r) => products n (nmul acc v) r | None => None end
      | TSlash :: ts => match factor n ts with Some (v, r) => products n (ndiv acc v) r | None => None end
      | _ => Some (acc, ts)
      end.
  Proof. reflexivity. Qed.
  Lemma factor_S n ts : factor (S n) ts =
      match ts with
      | TWord w :: TL :: r =>
        match fn w, expr n r with Some g, Some (v, TR :: r') => Some (g v, r') | _, _ => None end
      | TWord w :: r => match word num env w with Some v => Some (v, r) | None => None end
      | TL :: r => match expr n r with Some (v, TR :: r') => Some (v, r') | _ => None end
      | _ => None
      end.
  Proof. reflexivity. Qed.
  Lemma mono n :
    (forall m ts r, n <= m -> expr n ts = Some r -> expr m ts = Some r) /\
    (forall m ts r, n <= m -> term n ts = Some r -> term m ts = Some r) /\
    (forall m a ts r, n <= m -> sums n a ts = Some r -> sums m a ts = Some r) /\
    (forall m a ts r, n <= m -> products n a ts = Some r -> products m a ts = Some r) /\
    (forall m ts r, n <= m -> factor n ts = Some r -> factor m ts = Some r).
  Proof.
    induction n as [|n (IE & IT & IS & IP & IF)];
      [repeat split; intros; match goal with E : _ = Some ?r |- _ => exfalso; revert E; cbn; intros E; inversion E end|].
    repeat split; intros m; destruct m as [|m]; try (intros; lia).
    - intros ts r Hle. rewrite !expr_S. destruct (term n ts) as [[v r0]|] eqn:E; [|discriminate]. rewrite (IT m ts _ ltac:(lia) E). apply IS; lia.
    - intros ts r Hle. rewrite !term_S. destruct (factor n ts) as [[v r0]|] eqn:E; [|discriminate]. rewrite (IF m ts _ ltac:(lia) E). apply IP; lia.
    - intros a ts r Hle. rewrite !sums_S. destruct ts as [|[w| | | | |] ts]; try (intros; assumption).
      destruct (term n ts) as [[v r0]|] eqn:E; [|discriminate]. rewrite (IT m ts _ ltac:(lia) E). apply IS; lia.
    - intros a ts r Hle. rewrite !products_S. destruct ts as [|[w| | | | |] ts]; try (intros; assumption).
      + destruct (factor n ts) as [[v r0]|] eqn:E; [|discriminate]. rewrite (IF m ts _ ltac:(lia) E). apply IP; lia.
      + destruct (factor n ts) as [[v r0]|] eqn:E; [|discriminate]. rewrite (IF m ts _ ltac:(lia) E). apply IP; lia.
    - intros ts r Hle. rewrite !factor_S. destruct ts as [|[w| | | | |] ts]; try (intros; assumption).
      + destruct ts as [|[w'| | | | |] ts]; try (intros; assumption). destruct (fn w); [|intros; assumption].
        destruct (expr n ts) as [[v r0]|] eqn:E; [|discriminate]. rewrite (IE m ts _ ltac:(lia) E). intros; assumption.
      + destruct (expr n ts) as [[v r0]|] eqn:E; [|discriminate]. rewrite (IE m ts _ ltac:(lia) E). intros; assumption.
  Qed.
End Fuel.

(** ** C52 A text has at most one value *)
Theorem C52_unique {T} `{Num T} num env s (v w : T) : reads num env s v -> reads num env s w -> v = w.
Proof.
  intros [n E] [m E']. destruct (mono num env n) as [M _]. destruct (mono num env m) as [M' _].
  pose proof (M (max n m) _ _ ltac:(lia) E) as A. pose proof (M' (max n m) _ _ ltac:(lia) E') as B. congruence.
Qed.

(** ** Tokens of an expression *)
Section Tokens.
  Context {T : Type} (num_text : T -> string).
  Definition tparen (ts : list token) : list token := TL :: ts ++ [TR].
  Fixpoint toks (n : node T) : list token :=
    match n with
    | NConst _ v => [TWord (num_text v)]
    | NVar _ s _ => [TWord s]
    | NAdd _ args =>
      (fix join (l : list (node T)) : list token :=
         match l with
         | [] => []
         | [x] => toks x
         | x :: l' => toks x ++ TPlus :: join l'
         end) args
    | NCos _ a => TWord "cos" :: tparen (toks a)
    | NDiv _ a b =>
      (match a with NAdd _ _ | NDiv _ _ _ => tparen (toks a) | _ => toks a end) ++ TSlash ::
      (match b with NAdd _ _ | NMul _ _ _ | NDiv _ _ _ => tparen (toks b) | _ => toks b end)
    | NMul _ a b =>
      (match a with NAdd _ _ | NDiv _ _ _ => tparen (toks a) | _ => toks a end) ++ TStar ::
      (match b with NAdd _ _ => tparen (toks b) | _ => toks b end)
    | NSin _ a => TWord "sin" :: tparen (toks a)
    end.
  (** Every sum has a term; names and numerals are words. *)
  Definition wordy (e : node T) : Prop :=
    forall s, sub s e ->
      match s with
      | NAdd _ args => args <> []
      | NVar _ nm _ => is_word nm
      | NConst _ v => is_word (num_text v)
      | _ => True
      end.
  Lemma wordy_arg e a : wordy e -> In a (arguments e) -> wordy a.
  Proof. intros Hw Ha s Hs. apply Hw. eapply sub_arg; eassumption. Qed.

  Lemma lex_char c t s : symbol c = Some t -> lex (String c "" ++ s) = t :: lex s.
  Proof. apply lex_sym. Qed.
  Lemma not_plain_sym c t : symbol c = Some t -> ~ plain c.
  Proof. intros E [P _]. congruence. Qed.
  Lemma lex_call w s : is_word w -> lex (w ++ String "(" s) = TWord w :: TL :: lex s.
  Proof. intros Hw. rewrite lex_word; [|exact Hw|cbn; intros [P _]; discriminate]. f_equal. apply lex_sym. reflexivity. Qed.

  Lemma lex_show e : wordy e -> forall s, starts_apart s -> lex (show num_text e ++ s) = toks e ++ lex s.
  Proof.
    assert (Hp : forall e, (forall s, starts_apart s -> lex (show num_text e ++ s) = toks e ++ lex s) ->
              forall s, lex (paren (show num_text e) ++ s) = tparen (toks e) ++ lex s).
    { intros e0 IH s. unfold paren, tparen. rewrite !app_assoc_s. cbn [append]. rewrite (lex_sym "(" TL) by reflexivity.
      rewrite IH by (cbn; intros [P _]; discriminate). rewrite (lex_sym ")" TR) by reflexivity. cbn [app]. rewrite <- app_assoc. reflexivity. }
    induction e as [i v|i nm k|i args IH|i a IH|i a b IHa IHb|i a b IHa IHb|i a IH] using node_ind'; intros Hw s Hs.
    - cbn [show toks]. apply lex_word; [|exact Hs]. apply (Hw _ (sub_refl _)).
    - cbn [show toks]. apply lex_word; [|exact Hs]. apply (Hw _ (sub_refl _)).
    - assert (Hne : args <> []) by apply (Hw _ (sub_refl _)).
      assert (HI : Forall (fun e => forall s, starts_apart s -> lex (show num_text e ++ s) = toks e ++ lex s) args).
      { rewrite Forall_forall in *. intros x Hx. apply IH; [exact Hx|]. eapply wordy_arg; [exact Hw|exact Hx]. }
      clear Hw IH. cbn [show toks]. revert s Hs. induction HI as [|x l Hx HI IH]; [congruence|]. intros s Hs.
      destruct l as [|y l]; [apply Hx; exact Hs|].
      change (lex ((show num_text x ++ " + " ++ show num_text (NAdd i (y :: l))) ++ s) = (toks x ++ TPlus :: toks (NAdd i (y :: l))) ++ lex s).
      rewrite !app_assoc_s, Hx by (cbn; intros [_ P]; congruence). cbn [append]. rewrite lex_space, (lex_sym "+" TPlus), lex_space by reflexivity.
      rewrite <- app_assoc. cbn [app]. f_equal. f_equal. apply IH; [discriminate|exact Hs].
    - cbn [show toks]. pose proof (wordy_arg _ a Hw (or_introl eq_refl)) as Wa. rewrite !app_assoc_s. cbn [append].
      change (String "c" (String "o" (String "s" (String "(" (show num_text a ++ String ")" s)))))%string
        with ("cos" ++ String "(" (show num_text a ++ String ")" s))%string.
      rewrite lex_call by (split; [discriminate|intros c [<-|[<-|[<-|[]]]]; (split; [reflexivity|discriminate])]).
      rewrite (IH Wa) by (cbn; intros [P _]; discriminate). rewrite (lex_sym ")" TR) by reflexivity. cbn [app tparen]. rewrite <- app_assoc. reflexivity.
    - pose proof (wordy_arg _ a Hw (or_introl eq_refl)) as Wa. pose proof (wordy_arg _ b Hw (or_intror (or_introl eq_refl))) as Wb.
      specialize (IHa Wa). specialize (IHb Wb). cbn [show toks]. rewrite !app_assoc_s.
      set (sb := ((match b with NAdd _ _ | NDiv _ _ _ | NMul _ _ _ => paren (show num_text b) | _ => show num_text b end) ++ s)%string).
      assert (Eb : lex sb = (match b with NAdd _ _ | NDiv _ _ _ | NMul _ _ _ => tparen (toks b) | _ => toks b end) ++ lex s).
      { unfold sb. destruct b; try (apply IHb; exact Hs); apply Hp; exact IHb. }
      assert (Ha : starts_apart ("/" ++ sb)) by (cbn; intros [P _]; discriminate).
      transitivity ((match a with NAdd _ _ | NDiv _ _ _ => tparen (toks a) | _ => toks a end) ++ lex ("/" ++ sb)).
      + destruct a; try (apply IHa; exact Ha); apply Hp; exact IHa.
      + cbn [append]. rewrite (lex_sym "/" TSlash) by reflexivity. rewrite Eb, <- app_assoc. reflexivity.
    - pose proof (wordy_arg _ a Hw (or_introl eq_refl)) as Wa. pose proof (wordy_arg _ b Hw (or_intror (or_introl eq_refl))) as Wb.
      specialize (IHa Wa). specialize (IHb Wb). cbn [show toks]. rewrite !app_assoc_s.
      set (sb := ((match b with NAdd _ _ => paren (show num_text b) | _ => show num_text b end) ++ s)%string).
      assert (Eb : lex sb = (match b with NAdd _ _ => tparen (toks b) | _ => toks b end) ++ lex s).
      { unfold sb. destruct b; try (apply IHb; exact Hs); apply Hp; exact IHb. }
      assert (Ha : starts_apart ("*" ++ sb)) by (cbn; intros [P _]; discriminate).
      transitivity ((match a with NAdd _ _ | NDiv _ _ _ => tparen (toks a) | _ => toks a end) ++ lex ("*" ++ sb)).
      + destruct a; try (apply IHa; exact Ha); apply Hp; exact IHa.
      + cbn [append]. rewrite (lex_sym "*" TStar) by reflexivity. rewrite Eb, <- app_assoc. reflexivity.
    - cbn [show toks]. pose proof (wordy_arg _ a Hw (or_introl eq_refl)) as Wa. rewrite !app_assoc_s. cbn [append].
      change (String "s" (String "i" (String "n" (String "(" (show num_text a ++ String ")" s)))))%string
        with ("sin" ++ String "(" (show num_text a ++ String ")" s))%string.
      rewrite lex_call by (split; [discriminate|intros c [<-|[<-|[<-|[]]]]; (split; [reflexivity|discriminate])]).
      rewrite (IH Wa) by (cbn; intros [P _]; discriminate). rewrite (lex_sym ")" TR) by reflexivity. cbn [app tparen]. rewrite <- app_assoc. reflexivity.
  Qed.
End Tokens.

(** ** Reading the tokens (exact arithmetic) *)
Section Value.
  Variables (num_text : X -> string) (num env : string -> option X) (vs : valsX).
  Notation expr := (expr num env). Notation term := (term num env). Notation sums := (sums num env).
  Notation products := (products num env). Notation factor := (factor num env).
  Notation ev := (evaluate vs). Notation toks := (toks num_text).

  (** Names have the values of the variables; numerals read back. *)
  Definition faithful (e : nodeX) : Prop :=
    forall s, sub s e ->
      match s with
      | NVar _ nm _ => num nm = None /\ env nm = Some (ev s)
      | NConst _ v => num (num_text v) = Some v
      | NAdd _ args => args <> []
      | _ => True
      end.
  Lemma faithful_arg e a : faithful e -> In a (arguments e) -> faithful a.
  Proof. intros Hw Ha s Hs. apply Hw. eapply sub_arg; eassumption. Qed.

  (** Results with enough fuel. *)
  Definition e_expr ts res := exists n, expr n ts = Some res.
  Definition e_term ts res := exists n, term n ts = Some res.
  Definition e_sums a ts res := exists n, sums n a ts = Some res.
  Definition e_prod a ts res := exists n, products n a ts = Some res.
  Definition e_fact ts res := exists n, factor n ts = Some res.
  Ltac fuel n m := exists (S (max n m)); rewrite ?expr_S, ?term_S, ?sums_S, ?products_S, ?factor_S.
  Lemma r_expr ts v r res : e_term ts (v, r) -> e_sums v r res -> e_expr ts res.
  Proof. intros [n E] [m E']. fuel n m. rewrite (proj1 (proj2 (mono num env n)) (max n m) _ _ ltac:(lia) E). apply (proj1 (proj2 (proj2 (mono num env m)))); [lia|exact E']. Qed.
  Lemma r_term ts v r res : e_fact ts (v, r) -> e_prod v r res -> e_term ts res.
  Proof. intros [n E] [m E']. fuel n m. rewrite (proj2 (proj2 (proj2 (proj2 (mono num env n)))) (max n m) _ _ ltac:(lia) E). apply (proj1 (proj2 (proj2 (proj2 (mono num env m))))); [lia|exact E']. Qed.
  Lemma r_plus a ts v r res : e_term ts (v, r) -> e_sums (nadd a v) r res -> e_sums a (TPlus :: ts) res.
  Proof. intros [n E] [m E']. fuel n m. rewrite (proj1 (proj2 (mono num env n)) (max n m) _ _ ltac:(lia) E). apply (proj1 (proj2 (proj2 (mono num env m)))); [lia|exact E']. Qed.
  Lemma r_star a ts v r res : e_fact ts (v, r) -> e_prod (nmul a v) r res -> e_prod a (TStar :: ts) res.
  Proof. intros [n E] [m E']. fuel n m. rewrite (proj2 (proj2 (proj2 (proj2 (mono num env n)))) (max n m) _ _ ltac:(lia) E). apply (proj1 (proj2 (proj2 (proj2 (mono num env m))))); [lia|exact E']. Qed.
  Lemma r_slash a ts v r res : e_fact ts (v, r) -> e_prod (ndiv a v) r res -> e_prod a (TSlash :: ts) res.
  Proof. intros [n E] [m E']. fuel n m. rewrite (proj2 (proj2 (proj2 (proj2 (mono num env n)))) (max n m) _ _ ltac:(lia) E). apply (proj1 (proj2 (proj2 (proj2 (mono num env m))))); [lia|exact E']. Qed.
  Lemma r_paren ts v r : e_expr ts (v, TR :: r) -> e_fact (TL :: ts) (v, r).
  Proof. intros [n E]. exists (S n). rewrite factor_S. rewrite E. reflexivity. Qed.
  Lemma r_call w g ts v r : fn w = Some g -> e_expr ts (v, TR :: r) -> e_fact (TWord w :: TL :: ts) (g v, r).
  Proof. intros Eg [n E]. exists (S n). rewrite factor_S. rewrite Eg, E. reflexivity. Qed.

  (** What can follow a product, and a sum. *)
  Definition after_factor (r : list token) : Prop := match r with TL :: _ => False | _ => True end.
  Definition after_term (r : list token) : Prop := match r with (TL | TStar | TSlash) :: _ => False | _ => True end.
  Definition after_expr (r : list token) : Prop := match r with (TL | TStar | TSlash | TPlus) :: _ => False | _ => True end.
  Lemma r_word w v r : word num env w = Some v -> after_factor r -> e_fact (TWord w :: r) (v, r).
  Proof. intros E Hr. exists 1. rewrite factor_S. destruct r as [|[]]; try (rewrite E; reflexivity). destruct Hr. Qed.
  Lemma r_end_prod a r : after_term r -> e_prod a r (a, r).
  Proof. intros Hr. exists 1. destruct r as [|[]]; try reflexivity; destruct Hr. Qed.
  Lemma r_end_sum a r : after_expr r -> e_sums a r (a, r).
  Proof. intros Hr. exists 1. destruct r as [|[]]; try reflexivity; destruct Hr. Qed.

  (** Laws of exact arithmetic. *)
  Lemma mul_assoc (a b c : X) : nmul a (nmul b c) = nmul (nmul a b) c.
  Proof. destruct a, b, c; cbn; auto. f_equal. lra. Qed.
  Lemma mul_div (a b c : X) : nmul a (ndiv b c) = ndiv (nmul a b) c.
  Proof. destruct a as [a|], b as [b|], c as [c|]; cbn; auto; destruct (Req_EM_T c 0); cbn; auto. f_equal. unfold Rdiv. lra. Qed.
  Lemma add_assoc (a b c : X) : nadd a (nadd b c) = nadd (nadd a b) c.
  Proof. destruct a, b, c; cbn; auto. f_equal. lra. Qed.
  Lemma add_0 (a : X) : nadd n0 a = a.
  Proof. destruct a; cbn; auto. f_equal. lra. Qed.
  Lemma fold_from (l : list nodeX) (a : X) : fold_left (fun acc x => nadd acc (ev x)) l a = nadd a (fold_left (fun acc x => nadd acc (ev x)) l n0).
  Proof.
    revert a. induction l as [|x l IH]; intros a; cbn [fold_left].
    - destruct a; cbn; auto. f_equal. lra.
    - rewrite IH, (IH (nadd n0 (ev x))), add_0, add_assoc. reflexivity.
  Qed.

  Definition is_add (e : nodeX) : bool := match e with NAdd _ _ => true | _ => false end.
  Definition is_atom (e : nodeX) : bool := match e with NAdd _ _ | NMul _ _ _ | NDiv _ _ _ => false | _ => true end.
  Record parses (e : nodeX) : Prop := {
    ps_term : is_add e = false -> forall r res, after_factor r -> e_prod (ev e) r res -> e_term (toks e ++ r) res;
    ps_star : is_add e = false -> forall a r res, after_factor r -> e_prod (nmul a (ev e)) r res -> e_prod a (TStar :: toks e ++ r) res;
    ps_plus : forall a r res, after_term r -> e_sums (nadd a (ev e)) r res -> e_sums a (TPlus :: toks e ++ r) res;
    ps_expr : forall r res, after_term r -> e_sums (ev e) r res -> e_expr (toks e ++ r) res;
    ps_fact : is_atom e = true -> forall r, after_factor r -> e_fact (toks e ++ r) (ev e, r)
  }.
  Lemma after_tf r : after_term r -> after_factor r.
  Proof. destruct r as [|[]]; cbn; auto. Qed.
  (** Everything but a sum: the last two follow. *)
  Lemma parses_term e : is_add e = false ->
    (is_atom e = true -> forall r, after_factor r -> e_fact (toks e ++ r) (ev e, r)) ->
    (forall r res, after_factor r -> e_prod (ev e) r res -> e_term (toks e ++ r) res) ->
    (forall a r res, after_factor r -> e_prod (nmul a (ev e)) r res -> e_prod a (TStar :: toks e ++ r) res) -> parses e.
  Proof.
    intros Ha Hf Ht Hs. constructor; auto.
    - intros a r res Hr Hp. eapply r_plus; [|exact Hp]. apply Ht; [apply after_tf; exact Hr|]. apply r_end_prod. exact Hr.
    - intros r res Hr Hp. eapply r_expr; [|exact Hp]. apply Ht; [apply after_tf; exact Hr|]. apply r_end_prod. exact Hr.
  Qed.
  Lemma parses_factor e : is_add e = false -> (forall r, after_factor r -> e_fact (toks e ++ r) (ev e, r)) -> parses e.
  Proof.
    intros Ha Hf. apply parses_term; [exact Ha|intros _; exact Hf| |].
    - intros r res Hr Hp. eapply r_term; [apply Hf; exact Hr|exact Hp].
    - intros a r res Hr Hp. eapply r_star; [apply Hf; exact Hr|exact Hp].
  Qed.
  Lemma paren_fact e r : parses e -> e_fact (tparen (toks e) ++ r) (ev e, r).
  Proof.
    intros P. unfold tparen. cbn [app]. rewrite <- app_assoc. cbn [app]. apply r_paren. apply (ps_expr e P); [exact I|]. apply r_end_sum. exact I.
  Qed.
  Lemma call_fact w g e r : fn w = Some g -> parses e -> e_fact (TWord w :: tparen (toks e) ++ r) (g (ev e), r).
  Proof.
    intros Eg P. unfold tparen. cbn [app]. rewrite <- app_assoc. cbn [app]. apply r_call; [exact Eg|]. apply (ps_expr e P); [exact I|]. apply r_end_sum. exact I.
  Qed.

  Lemma parse e : faithful e -> parses e.
  Proof.
    induction e as [i v|i nm k|i args IH|i a IH|i a b IHa IHb|i a b IHa IHb|i a IH] using node_ind'; intros Hw.
    - apply parses_factor; [reflexivity|]. intros r Hr. apply r_word; [|exact Hr]. unfold word. rewrite (Hw _ (sub_refl _)). reflexivity.
    - apply parses_factor; [reflexivity|]. intros r Hr. apply r_word; [|exact Hr]. destruct (Hw _ (sub_refl _)) as [E1 E2]. unfold word. rewrite E1. exact E2.
    - assert (Hne : args <> []) by apply (Hw _ (sub_refl _)).
      assert (HI : Forall parses args).
      { rewrite Forall_forall in *. intros x Hx. apply IH; [exact Hx|]. eapply faithful_arg; [exact Hw|exact Hx]. }
      clear Hw IH.
      assert (G : (forall a r res, after_term r -> e_sums (fold_left (fun acc x => nadd acc (ev x)) args a) r res -> e_sums a (TPlus :: toks (NAdd i args) ++ r) res) /\
                  (forall r res, after_term r -> e_sums (ev (NAdd i args)) r res -> e_expr (toks (NAdd i args) ++ r) res)).
      { induction HI as [|x l Px HI IHl]; [congruence|]. destruct l as [|y l].
        - cbn [DispSpec.expr]. split.
          + intros a r res Hr Hs. apply (ps_plus x Px); [exact Hr|exact Hs].
          + intros r res Hr Hs. apply (ps_expr x Px); [exact Hr|]. cbn [evaluate fold_left] in Hs. rewrite add_0 in Hs. exact Hs.
        - destruct IHl as [G1 G2]; [discriminate|].
          change (Properties_Display.toks num_text (NAdd i (x :: y :: l))) with (toks x ++ TPlus :: toks (NAdd i (y :: l))). split.
          + intros a r res Hr Hs. rewrite <- app_assoc. cbn [app]. apply (ps_plus x Px); [exact I|]. apply G1; [exact Hr|exact Hs].
          + intros r res Hr Hs. rewrite <- app_assoc. cbn [app]. apply (ps_expr x Px); [exact I|]. apply G1; [exact Hr|].
            cbn [evaluate] in Hs. cbn [fold_left] in Hs |- *. rewrite add_0 in Hs. exact Hs. }
      destruct G as [G1 G2]. constructor; try discriminate; [|exact G2].
      intros a r res Hr Hs. apply G1; [exact Hr|]. rewrite fold_from. exact Hs.
    - pose proof (IH (faithful_arg _ a Hw (or_introl eq_refl))) as P. apply parses_factor; [reflexivity|]. intros r Hr.
      exact (call_fact "cos" ncos a r eq_refl P).
    - pose proof (IHa (faithful_arg _ a Hw (or_introl eq_refl))) as Pa. pose proof (IHb (faithful_arg _ b Hw (or_intror (or_introl eq_refl)))) as Pb.
      clear IHa IHb.
      assert (Hb : forall r, after_factor r -> e_fact ((match b with NAdd _ _ | NDiv _ _ _ | NMul _ _ _ => tparen (toks b) | _ => toks b end) ++ r) (ev b, r)).
      { intros r Hr. destruct b; try (apply (paren_fact _ r Pb)); apply (ps_fact _ Pb); auto. }
      apply parses_term; [reflexivity|discriminate| |].
      + intros r res Hr Hp. cbn [Properties_Display.toks]. rewrite <- app_assoc. cbn [app].
        assert (Hs : e_prod (ev a) (TSlash :: (match b with NAdd _ _ | NDiv _ _ _ | NMul _ _ _ => tparen (toks b) | _ => toks b end) ++ r) res)
          by (eapply r_slash; [apply Hb; exact Hr|exact Hp]).
        destruct a; try (apply (ps_term _ Pa); [reflexivity|exact I|exact Hs]); (eapply r_term; [apply (paren_fact _ _ Pa)|exact Hs]).
      + intros c r res Hr Hp. cbn [Properties_Display.toks]. rewrite <- app_assoc. cbn [app].
        assert (Hs : e_prod (nmul c (ev a)) (TSlash :: (match b with NAdd _ _ | NDiv _ _ _ | NMul _ _ _ => tparen (toks b) | _ => toks b end) ++ r) res).
        { eapply r_slash; [apply Hb; exact Hr|]. change (ev (NDiv i a b)) with (ndiv (ev a) (ev b)) in Hp. rewrite mul_div in Hp. exact Hp. }
        destruct a; try (apply (ps_star _ Pa); [reflexivity|exact I|exact Hs]); (eapply r_star; [apply (paren_fact _ _ Pa)|exact Hs]).
    - pose proof (IHa (faithful_arg _ a Hw (or_introl eq_refl))) as Pa. pose proof (IHb (faithful_arg _ b Hw (or_intror (or_introl eq_refl)))) as Pb.
      clear IHa IHb.
      assert (Hb : forall c r res, after_factor r -> e_prod (nmul c (ev b)) r res ->
                e_prod c (TStar :: (match b with NAdd _ _ => tparen (toks b) | _ => toks b end) ++ r) res).
      { intros c r res Hr Hp. destruct b; try (apply (ps_star _ Pb); [reflexivity|exact Hr|exact Hp]); (eapply r_star; [apply (paren_fact _ _ Pb)|exact Hp]). }
      apply parses_term; [reflexivity|discriminate| |].
      + intros r res Hr Hp. cbn [Properties_Display.toks]. rewrite <- app_assoc. cbn [app].
        assert (Hs : e_prod (ev a) (TStar :: (match b with NAdd _ _ => tparen (toks b) | _ => toks b end) ++ r) res)
          by (apply Hb; [exact Hr|exact Hp]).
        destruct a; try (apply (ps_term _ Pa); [reflexivity|exact I|exact Hs]); (eapply r_term; [apply (paren_fact _ _ Pa)|exact Hs]).
      + intros c r res Hr Hp. cbn [Properties_Display.toks]. rewrite <- app_assoc. cbn [app].
        assert (Hs : e_prod (nmul c (ev a)) (TStar :: (match b with NAdd _ _ => tparen (toks b) | _ => toks b end) ++ r) res).
        { apply Hb; [exact Hr|]. change (ev (NMul i a b)) with (nmul (ev a) (ev b)) in Hp. rewrite mul_assoc in Hp. exact Hp. }
        destruct a; try (apply (ps_star _ Pa); [reflexivity|exact I|exact Hs]); (eapply r_star; [apply (paren_fact _ _ Pa)|exact Hs]).
    - pose proof (IH (faithful_arg _ a Hw (or_introl eq_refl))) as P. apply parses_factor; [reflexivity|]. intros r Hr.
      exact (call_fact "sin" nsin a r eq_refl P).
  Qed.
End Value.

(** ** C52 Denotation *)
Section Denotes.
  Variables (num_text : X -> string) (num env : string -> option X) (vs : valsX).
  Lemma split_readable e : canonical e -> readable num_text num env vs e -> wordy num_text e /\ faithful num_text num env vs e.
  Proof.
    intros Hc Hr. split; intros s Hs; specialize (Hr s Hs); destruct (Hc s Hs) as [_ Hk]; destruct s; try exact I; try apply Hr.
    - destruct args; [cbn in Hk; lia|discriminate].
    - destruct args; [cbn in Hk; lia|discriminate].
  Qed.
  (** The text of a canonical expression, read as arithmetic, has the expression's value. *)
  Theorem C52_canonical e : canonical e -> readable num_text num env vs e ->
    reads num env (show num_text e) (evaluate vs e).
  Proof.
    intros Hc Hr. destruct (split_readable e Hc Hr) as [Hw Hf].
    pose proof (lex_show num_text e Hw "" I) as E. rewrite app_nil_s in E. cbn [lex lexw] in E.
    unfold reads. rewrite E. apply (ps_expr _ _ _ _ e (parse _ _ _ _ e Hf)); [exact I|]. apply r_end_sum. exact I.
  Qed.
  (** So does every expression built by calls of the library. *)
  Theorem C52_denotes `{HashOrd} k pool e : reach any_op k pool -> In e pool -> readable num_text num env vs e ->
    reads num env (show num_text e) (evaluate vs e).
  Proof. intros Hp He. apply C52_canonical. eapply C07_canonical_form; eassumption. Qed.
  (** A constraint prints as its left side, its relation and its right side. *)
  Theorem C52_constraint c : canonical (clhs c) -> canonical (crhs c) ->
    readable num_text num env vs (clhs c) -> readable num_text num env vs (crhs c) ->
    reads_rel num env (constraint_text num_text c) (evaluate vs (clhs c)) (relation_sign (ckd c)) (evaluate vs (crhs c)).
  Proof.
    assert (Er : relation_sign (ckd c) = rel_text (ckd c)) by (destruct (ckd c); reflexivity). rewrite Er. clear Er.
    intros Hc Hc' Hr Hr'. destruct (split_readable _ Hc Hr) as [Hw Hf]. destruct (split_readable _ Hc' Hr') as [Hw' Hf'].
    unfold constraint_text, reads_rel. rewrite (lex_show num_text _ Hw) by (cbn; intros [_ P]; congruence).
    cbn [append]. rewrite lex_space, lex_word; [|destruct (ckd c); split; try discriminate; intros x [<-|[<-|[]]]; (split; [reflexivity|discriminate])|cbn; intros [_ P]; congruence].
    rewrite lex_space. pose proof (lex_show num_text _ Hw' "" I) as E. rewrite app_nil_s in E. cbn [lex lexw] in E. rewrite E. clear E.
    assert (H1 : e_expr num env (toks num_text (clhs c) ++ TWord (rel_text (ckd c)) :: toks num_text (crhs c) ++ [])
                  (evaluate vs (clhs c), TWord (rel_text (ckd c)) :: toks num_text (crhs c) ++ [])).
    { apply (ps_expr _ _ _ _ _ (parse _ _ _ _ _ Hf)); [exact I|]. apply r_end_sum. exact I. }
    assert (H2 : e_expr num env (toks num_text (crhs c) ++ []) (evaluate vs (crhs c), [])).
    { apply (ps_expr _ _ _ _ _ (parse _ _ _ _ _ Hf')); [exact I|]. apply r_end_sum. exact I. }
    destruct H1 as [n1 E1], H2 as [n2 E2]. exists (max n1 n2), (toks num_text (crhs c) ++ []). split.
    - apply (proj1 (mono num env n1)); [lia|exact E1].
    - apply (proj1 (mono num env n2)); [lia|exact E2].
  Qed.
End Denotes.

(** ** C52 The model's text: one line for the sense, one for the objective, one for each constraint *)
Section Lines.
  Context {T : Type} `{Num T} (num_text : T -> string).
  Definition one_line (e : node T) : Prop :=
    forall s, sub s e -> match s with NVar _ nm _ => no_newline nm | NConst _ v => no_newline (num_text v) | _ => True end.
  Definition heading (o : objective T) : string :=
    match o with Minimize _ => "Minimize" | Maximize _ => "Maximize" | EmptyObj => "Find point" end.
  Definition objective_line (o : objective T) : string :=
    match o with Minimize e | Maximize e => show num_text e | EmptyObj => "" end.
  Definition constraint_line (c : constraint T) : string :=
    if string_dec (clabel c) "" then constraint_text num_text c else constraint_text num_text c ++ " : " ++ clabel c.

  Lemma in_app_s a b c : In c (list_ascii_of_string (a ++ b)) <-> In c (list_ascii_of_string a) \/ In c (list_ascii_of_string b).
  Proof. induction a as [|x a IH]; cbn; [tauto|]. rewrite IH. tauto. Qed.
  Lemma nn_app a b : no_newline a -> no_newline b -> no_newline (a ++ b).
  Proof. unfold no_newline. rewrite in_app_s. tauto. Qed.
  Lemma nn_no_nl s : no_newline s -> no_nl s = true.
  Proof.
    unfold no_newline, no_nl. induction s as [|c s IH]; cbn; intros Hn; [reflexivity|].
    rewrite IH by tauto. rewrite andb_true_r. apply negb_true_iff, Ascii.eqb_neq. intros ->. apply Hn. left. reflexivity.
  Qed.
  Ltac nn := unfold no_newline; cbn; intuition discriminate.
  Lemma nn_show e : one_line e -> no_newline (show num_text e).
  Proof.
    assert (Hpar : forall s, no_newline s -> no_newline (paren s)).
    { intros s Hs. unfold paren. apply nn_app; [nn|]. apply nn_app; [exact Hs|nn]. }
    induction e as [i v|i nm k|i args IH|i a IH|i a b IHa IHb|i a b IHa IHb|i a IH] using node_ind'; intros Hw.
    - apply (Hw _ (sub_refl _)).
    - apply (Hw _ (sub_refl _)).
    - assert (HI : Forall (fun e => no_newline (show num_text e)) args).
      { rewrite Forall_forall in *. intros x Hx. apply IH; [exact Hx|]. intros s Hs. apply Hw. eapply sub_arg; eassumption. }
      clear Hw IH. induction HI as [|x l Hx HI IH]; [nn|]. destruct l as [|y l]; [exact Hx|].
      change (no_newline (show num_text x ++ " + " ++ show num_text (NAdd i (y :: l)))).
      apply nn_app; [exact Hx|]. apply nn_app; [nn|exact IH].
    - cbn [show]. apply nn_app; [nn|]. apply nn_app; [|nn]. apply IH. intros s Hs. apply Hw. eapply sub_arg; [left; reflexivity|exact Hs].
    - assert (Na : no_newline (show num_text a)) by (apply IHa; intros s Hs; apply Hw; eapply sub_arg; [left; reflexivity|exact Hs]).
      assert (Nb : no_newline (show num_text b)) by (apply IHb; intros s Hs; apply Hw; eapply sub_arg; [right; left; reflexivity|exact Hs]).
      cbn [show]. apply nn_app; [destruct a; auto|]. apply nn_app; [nn|]. destruct b; auto.
    - assert (Na : no_newline (show num_text a)) by (apply IHa; intros s Hs; apply Hw; eapply sub_arg; [left; reflexivity|exact Hs]).
      assert (Nb : no_newline (show num_text b)) by (apply IHb; intros s Hs; apply Hw; eapply sub_arg; [right; left; reflexivity|exact Hs]).
      cbn [show]. apply nn_app; [destruct a; auto|]. apply nn_app; [nn|]. destruct b; auto.
    - cbn [show]. apply nn_app; [nn|]. apply nn_app; [|nn]. apply IH. intros s Hs. apply Hw. eapply sub_arg; [left; reflexivity|exact Hs].
  Qed.

  Theorem C52_model (m : model T) :
    (forall e, md_objective m = Minimize e \/ md_objective m = Maximize e -> one_line e) ->
    Forall (fun c => one_line (clhs c) /\ one_line (crhs c) /\ no_newline (clabel c)) (md_constraints m) ->
    lines (model_text num_text m) =
      ([""%string; heading (md_objective m); objective_line (md_objective m)] ++
      match md_constraints m with [] => [] | cs => [""; "Subject to"]%string ++ map constraint_line cs end)%list.
  Proof.
    intros Ho Hc.
    assert (E : model_text num_text m = unlines ([""%string; heading (md_objective m); objective_line (md_objective m)] ++
      match md_constraints m with [] => [] | cs => [""; "Subject to"]%string ++ map constraint_line cs end)%list).
    { unfold model_text, unlines. rewrite map_app, concat_app. cbn [map]. rewrite !concat_cons. cbn [String.concat].
      assert (Ec : (if (0 <? length (md_constraints m))%nat then
         Display.nl ++ "Subject to" ++ Display.nl ++
         String.concat "" (map (fun c => if negb (clabel c =? "") then constraint_text num_text c ++ " : " ++ clabel c ++ Display.nl
                                       else constraint_text num_text c ++ Display.nl) (md_constraints m))
       else "")%string = String.concat "" (map (fun l => (l ++ nls)%string)
          match md_constraints m with [] => [] | cs => [""; "Subject to"]%string ++ map constraint_line cs end)%list).
      { clear Ho Hc.
        rewrite (map_ext (fun c : constraint T => if negb (clabel c =? "")%string then _ else _) (fun c => (constraint_line c ++ nls)%string)).
        2: { intros d. unfold constraint_line. destruct (string_dec (clabel d) "") as [Ed|Ed].
             - rewrite Ed. reflexivity.
             - apply String.eqb_neq in Ed. rewrite Ed. cbn [negb]. rewrite !app_assoc_s. reflexivity. }
        destruct (md_constraints m) as [|c cs]; [reflexivity|]. cbn [length Nat.ltb Nat.leb].
        rewrite map_app, concat_app, map_map. cbn [map]. rewrite !concat_cons, !app_assoc_s. reflexivity. }
      rewrite Ec. rewrite <- !app_assoc_s. f_equal. destruct (md_objective m); cbn [heading objective_line]; rewrite ?app_assoc_s; reflexivity. }
    rewrite E. apply lines_unlines. rewrite forallb_app. apply andb_true_iff. split.
    - cbn [forallb]. rewrite !andb_true_iff. repeat split.
      + destruct (md_objective m); reflexivity.
      + apply nn_no_nl. destruct (md_objective m) as [e|e|]; cbn [objective_line]; [apply nn_show; apply Ho; left; reflexivity|apply nn_show; apply Ho; right; reflexivity|nn].
    - destruct (md_constraints m) as [|c cs]; [reflexivity|]. rewrite forallb_app. apply andb_true_iff. split; [reflexivity|].
      apply forallb_forall. intros l Hl. apply in_map_iff in Hl as (d & <- & Hd). rewrite Forall_forall in Hc. destruct (Hc d Hd) as (O1 & O2 & O3).
      apply nn_no_nl. assert (Nt : no_newline (constraint_text num_text d)).
      { unfold constraint_text. apply nn_app; [apply nn_show; exact O1|]. apply nn_app; [nn|]. apply nn_app; [destruct (ckd d); nn|]. apply nn_app; [nn|]. apply nn_show; exact O2. }
      unfold constraint_line. destruct (string_dec (clabel d) ""); [exact Nt|]. apply nn_app; [exact Nt|]. apply nn_app; [nn|exact O3].
  Qed.
End Lines.

(** ** Examples *)
(** (x + 2)*(y/x) prints as "(x + 2)*y/x". *)
Definition de_x : nodeX := NVar 0 "x" VarContinuous.
Definition de_y : nodeX := NVar 1 "y" VarContinuous.
Definition de : nodeX := NMul 5 (NAdd 3 [de_x; NConst 2 (Some 2%R)]) (NDiv 4 de_y de_x).
Definition de_vs : valsX := [(de_x, Some 3%R); (de_y, Some 6%R)].
Definition de_text (v : X) : string := match v with Some r => if Req_EM_T r 2 then "2" else "?" | None => "?" end.
Definition de_num (w : string) : option X := if String.eqb w "2" then Some (Some 2%R) else None.
Definition de_env (w : string) : option X := if String.eqb w "x" then Some (Some 3%R) else if String.eqb w "y" then Some (Some 6%R) else None.
Lemma sub_cases {T} (s e : node T) : sub s e -> s = e \/ exists a, In a (arguments e) /\ sub s a.
Proof. intros Hs. inversion Hs; subst; [left; reflexivity|right; eexists; split; eassumption]. Qed.
Lemma de_sub s : sub s de -> In s [de; NAdd 3 [de_x; NConst 2 (Some 2%R)]; NDiv 4 de_y de_x; de_x; de_y; NConst 2 (Some 2%R)].
Proof.
  intros Hs. apply sub_cases in Hs as [->|(a & [<-|[<-|[]]] & Hs)]; [cbn; tauto| |];
    (apply sub_cases in Hs as [->|(b & [<-|[<-|[]]] & Hs)]; [cbn; tauto| |]);
    (apply sub_cases in Hs as [->|(c & [] & Hs)]; cbn; tauto).
Qed.
Example C52_example : canonical de /\ readable de_text de_num de_env de_vs de /\ show de_text de = "(x + 2)*y/x"%string.
Proof.
  assert (E2 : de_text (Some 2%R) = "2"%string) by (unfold de_text; destruct (Req_EM_T 2 2); [reflexivity|lra]).
  assert (W : forall c, plain c -> is_word (String c "")).
  { intros c Hc. split; [discriminate|]. intros d [<-|[]]. exact Hc. }
  split; [|split].
  - intros s Hs. apply de_sub in Hs as [<-|[<-|[<-|[<-|[<-|[<-|[]]]]]]]; (split; [|cbn; try exact I]).
    + right. exists de_x. split; [reflexivity|]. eapply sub_arg; [left; reflexivity|]. eapply sub_arg; [left; reflexivity|apply sub_refl].
    + right. exists de_x. split; [reflexivity|]. eapply sub_arg; [left; reflexivity|apply sub_refl].
    + split; [lia|]. split; [intros x [<-|[<-|[]]] ? ?; discriminate|lia].
    + right. exists de_x. split; [reflexivity|]. eapply sub_arg; [right; left; reflexivity|apply sub_refl].
    + right. exists de_x. split; [reflexivity|apply sub_refl].
    + right. exists de_y. split; [reflexivity|apply sub_refl].
    + left. reflexivity.
  - intros s Hs. apply de_sub in Hs as [<-|[<-|[<-|[<-|[<-|[<-|[]]]]]]]; try exact I.
    + split; [apply W; split; [reflexivity|discriminate]|]. split; reflexivity.
    + split; [apply W; split; [reflexivity|discriminate]|]. split; reflexivity.
    + cbv beta iota. rewrite E2. split; [apply W; split; [reflexivity|discriminate]|]. reflexivity.
  - cbn [show de de_x de_y]. rewrite E2. reflexivity.
Qed.

(** ** C52 In floating point the text may denote another value: x*(y*z) prints as "x*y*z" *)
Section FloatText.
  Local Existing Instance NumF0.
  Definition fe : node F := NMul 4 (NVar 0 "x" VarContinuous) (NMul 3 (NVar 1 "y" VarContinuous) (NVar 2 "z" VarContinuous)).
  Definition f_big : F := flit (2 ^ 800).
  Definition f_small : F := ndiv n1 f_big.
  Definition fe_env (w : string) : option F :=
    if String.eqb w "x" then Some f_big else if String.eqb w "y" then Some f_big else if String.eqb w "z" then Some f_small else None.
  Definition fe_vs : vals F := [(NVar 0 "x" VarContinuous, f_big); (NVar 1 "y" VarContinuous, f_big); (NVar 2 "z" VarContinuous, f_small)].
  Theorem C52_float_refuted :
    (exists k pool, @reach F NumF0 any_op k pool /\ In fe pool) /\
    (forall nt, show nt fe = "x*y*z"%string) /\
    readable (fun _ => ""%string) (fun _ => None) fe_env fe_vs fe /\
    exists v, reads (fun _ => None) fe_env "x*y*z" v /\ v <> evaluate fe_vs fe.
  Proof.
    split; [|split; [|split]].
    - pose (ops := [OVar "x" VarContinuous; OVar "y" VarContinuous; OVar "z" VarContinuous; OMulNN 1 2; OMulNN 0 3]%string : list (op F)).
      exists 5%nat, [NVar 0 "x" VarContinuous; NVar 1 "y" VarContinuous; NVar 2 "z" VarContinuous;
        NMul 3 (NVar 1 "y" VarContinuous) (NVar 2 "z" VarContinuous); fe]%string.
      split; [|cbn; tauto]. eapply (@run_reach F NumF0 ord_id ops 0%nat []); [constructor|vm_compute; reflexivity].
    - intros nt. reflexivity.
    - intros s Hs. apply sub_cases in Hs as [->|(a & [<-|[<-|[]]] & Hs)]; [exact I| |].
      + apply sub_cases in Hs as [->|(b & [] & _)]. split; [split; [discriminate|intros c [<-|[]]; (split; [reflexivity|discriminate])]|]. split; vm_compute; reflexivity.
      + apply sub_cases in Hs as [->|(b & [<-|[<-|[]]] & Hs)]; [exact I| |]; (apply sub_cases in Hs as [->|(c & [] & _)]);
          (split; [split; [discriminate|intros c [<-|[]]; (split; [reflexivity|discriminate])]|]; split; vm_compute; reflexivity).
    - exists (Floats.SpecFloat.S754_infinity false). split; [exists 10; vm_compute; reflexivity|]. vm_compute. discriminate.
  Qed.
End FloatText.

(** ** C52 The text of a solver status determines the status *)
Theorem C52_status :
  (forall a b, status_text a = status_text b -> a = b) /\
  forall s t, status_text s = t <->
    (s = Solved /\ t = "solved"%string) \/ (s = Infeasible /\ t = "infeasible"%string) \/
    (s = Unknown /\ t = "unknown"%string) \/ (s = Error /\ t = "error"%string).
Proof.
  split; [intros [] [] E; reflexivity || discriminate E|].
  intros s t. split.
  - intros <-. destruct s; cbn [status_text]; auto.
  - intros [[-> ->]|[[-> ->]|[[-> ->]|[-> ->]]]]; reflexivity.
Qed.
