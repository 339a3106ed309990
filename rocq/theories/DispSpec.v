(** Specification: reading an arithmetic text.  Products bind tighter than sums, both
    associate to the left, parentheses group, [sin(..)] and [cos(..)] are calls; any other
    run of characters is a numeral or a name. *)
From Verif Require Import Base Num Node ExprSpec Constraint.

Inductive token := TWord (s : string) | TPlus | TStar | TSlash | TL | TR.
Definition symbol (c : ascii) : option token :=
  (if c =? "+" then Some TPlus else if c =? "*" then Some TStar else if c =? "/" then Some TSlash
   else if c =? "(" then Some TL else if c =? ")" then Some TR else None)%char.
(** The word at the start of the text and the tokens after it. *)
Fixpoint lexw (s : string) : string * list token :=
  match s with
  | EmptyString => (EmptyString, [])
  | String c s' =>
    let '(w, ts) := lexw s' in
    let ts' := match w with EmptyString => ts | _ => TWord w :: ts end in
    match symbol c with
    | Some t => (EmptyString, t :: ts')
    | None => if (c =? " ")%char then (EmptyString, ts') else (String c w, ts)
    end
  end.
Definition lex (s : string) : list token :=
  match lexw s with (EmptyString, ts) => ts | (w, ts) => TWord w :: ts end.

Section Read.
  Context {T : Type} `{Num T}.
  Variables (num : string -> option T) (env : string -> option T).  (* numerals, names *)

  Definition fn (w : string) : option (T -> T) :=
    if String.eqb w "sin" then Some nsin else if String.eqb w "cos" then Some ncos else None.
  Definition word (w : string) : option T := match num w with Some v => Some v | None => env w end.

  Fixpoint expr (n : nat) (ts : list token) : option (T * list token) :=
    match n with
    | 0 => None
    | S n => match term n ts with Some (v, r) => sums n v r | None => None end
    end
  with term (n : nat) (ts : list token) : option (T * list token) :=
    match n with
    | 0 => None
    | S n => match factor n ts with Some (v, r) => products n v r | None => None end
    end
  with sums (n : nat) (acc : T) (ts : list token) : option (T * list token) :=
    match n with
    | 0 => None
    | S n =>
      match ts with
      | TPlus :: ts => match term n ts with Some (v, r) => sums n (nadd acc v) r | None => None end
      | _ => Some (acc, ts)
      end
    end
  with products (n : nat) (acc : T) (ts : list token) : option (T * list token) :=
    match n with
    | 0 => None
    | S n =>
      match ts with
      | TStar :: ts => match factor n ts with Some (v, r) => products n (nmul acc v) r | None => None end
      | TSlash :: ts => match factor n ts with Some (v, r) => products n (ndiv acc v) r | None => None end
      | _ => Some (acc, ts)
      end
    end
  with factor (n : nat) (ts : list token) : option (T * list token) :=
    match n with
    | 0 => None
    | S n =>
      match ts with
      | TWord w :: TL :: r =>
        match fn w, expr n r with Some g, Some (v, TR :: r') => Some (g v, r') | _, _ => None end
      | TWord w :: r => match word w with Some v => Some (v, r) | None => None end
      | TL :: r => match expr n r with Some (v, TR :: r') => Some (v, r') | _ => None end
      | _ => None
      end
    end.

  (** The text is an expression with value [v].  ([n] only bounds the depth of the reader;
      see [C52_unique].) *)
  Definition reads (s : string) (v : T) : Prop := exists n, expr n (lex s) = Some (v, []).
  (** The text relates an expression of value [v] to one of value [w]. *)
  Definition reads_rel (s : string) (v : T) (rel : string) (w : T) : Prop :=
    exists n r, expr n (lex s) = Some (v, TWord rel :: r) /\ expr n r = Some (w, []).
End Read.

(** The relation signs a constraint's text should show. *)
Definition relation_sign (k : ckind) : string :=
  match k with Equal => "==" | LessEqual => "<=" | GreaterEqual => ">=" end.

(** A word: no space, no symbol, not empty. *)
Definition plain (c : ascii) : Prop := symbol c = None /\ c <> " "%char.
Definition is_word (s : string) : Prop := s <> ""%string /\ forall c, In c (list_ascii_of_string s) -> plain c.

(** The text's words can be told apart and mean what they should: each variable name of [e]
    is a word, not a numeral, and [env] gives it the variable's value; each constant of [e]
    prints as a word which [num] reads back. *)
Definition readable {T} `{Num T} (num_text : T -> string) (num env : string -> option T) (vs : vals T) (e : node T) : Prop :=
  forall s, sub s e ->
    match s with
    | NVar _ nm _ => is_word nm /\ num nm = None /\ env nm = Some (evaluate vs s)
    | NConst _ v => is_word (num_text v) /\ num (num_text v) = Some v
    | _ => True
    end.

(** Names, numerals and labels on one line. *)
Definition no_newline (s : string) : Prop := ~ In "010"%char (list_ascii_of_string s).
