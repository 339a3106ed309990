(** A reader of LP files, independent of the writer.  It reads the part of the
    format with one objective to minimise, equality rows, a bound line for each
    variable, and integer variables. *)
From Verif Require Import Base Num Text LpFile.
Local Open Scope string_scope.
Local Open Scope list_scope.

(** What an LP file says: names and numbers. *)
Record lp_row (T : Type) := mk_row { r_label : string; r_terms : list (T * string); r_rhs : T }.
Arguments mk_row {T}. Arguments r_label {T}. Arguments r_terms {T}. Arguments r_rhs {T}.
Record lp_doc (T : Type) := mk_doc {
  d_label : string; d_obj : list (T * string);
  d_rows : list (lp_row T);
  d_bounds : list (T * string * T);
  d_general : list string
}.
Arguments mk_doc {T}. Arguments d_label {T}. Arguments d_obj {T}. Arguments d_rows {T}. Arguments d_bounds {T}. Arguments d_general {T}.

(** Kinds of tokens. *)
Definition is_digit (c : ascii) : bool := byte_in 48 57 c.
Definition is_letter (c : ascii) : bool := byte_in 65 90 c || byte_in 97 122 c.
Definition starts_digit (w : string) : bool := match w with String c _ => is_digit c | _ => false end.
Fixpoint all_chars (p : ascii -> bool) (w : string) : bool := match w with EmptyString => true | String c r => p c && all_chars p r end.
Definition is_name (w : string) : bool :=
  match w with String c r => is_letter c && all_chars (fun c => is_letter c || is_digit c || (c =? "_")%char) r | _ => false end.
(** A name followed by a colon. *)
Fixpoint chop_colon (w : string) : option string :=
  match w with
  | EmptyString => None
  | String c EmptyString => if (c =? ":")%char then Some EmptyString else None
  | String c r => match chop_colon r with Some s => Some (String c s) | None => None end
  end.
Definition label_of (w : string) : option string :=
  match chop_colon w with Some s => if is_name s then Some s else None | None => None end.

Section Reader.
  Context {T : Type} `{Num T} `{NumText T}.

  Definition sign_of (w : string) : option (T -> T) :=
    if (w =? "+")%string then Some (fun v => v) else if (w =? "-")%string then Some nneg else None.
  (** Terms: a sign, an optional unsigned number, a name; as many as there are. *)
  Fixpoint read_terms (fuel : nat) (ws : list string) : option (list (T * string) * list string) :=
    match fuel, ws with
    | S fuel, sg :: w :: rest =>
      match sign_of sg with
      | None => Some ([], ws)
      | Some f =>
        let go (v : T) (nm : string) (rest : list string) :=
          if is_name nm then
            match read_terms fuel rest with Some (ts, r) => Some ((f v, nm) :: ts, r) | None => None end
          else None in
        if starts_digit w then
          match read_num w, rest with Some v, nm :: rest' => go v nm rest' | _, _ => None end
        else go n1 w rest
      end
    | _, _ => Some ([], ws)
    end.
  (** A number with an optional minus sign, or an infinity. *)
  Definition read_signed (w : string) : option T :=
    if starts_digit w || (match w with String c r => (c =? "-")%char && starts_digit r | _ => false end)
       || (w =? "inf")%string || (w =? "-inf")%string
    then read_num w else None.
  (** Rows: a label, at least one term, an equals sign, a number. *)
  Fixpoint read_rows (fuel : nat) (ws : list string) : option (list (lp_row T) * list string) :=
    match fuel, ws with
    | S fuel, lab :: rest =>
      match label_of lab with
      | None => Some ([], ws)
      | Some nm =>
        match read_terms (length rest) rest with
        | Some (t :: ts, eq :: num :: rest') =>
          if (eq =? "=")%string then
            match read_signed num, read_rows fuel rest' with
            | Some v, Some (rs, r) => Some (mk_row nm (t :: ts) v :: rs, r)
            | _, _ => None
            end
          else None
        | _ => None
        end
      end
    | _, _ => Some ([], ws)
    end.
  (** Bounds: number <= name <= number. *)
  Fixpoint read_bounds (fuel : nat) (ws : list string) : option (list (T * string * T) * list string) :=
    match fuel, ws with
    | S fuel, lo :: le1 :: nm :: le2 :: hi :: rest =>
      match read_signed lo, read_signed hi with
      | Some l, Some u =>
        if (le1 =? "<=")%string && (le2 =? "<=")%string && is_name nm then
          match read_bounds fuel rest with Some (bs, r) => Some ((l, nm, u) :: bs, r) | None => None end
        else None
      | _, _ => Some ([], ws)
      end
    | _, _ => Some ([], ws)
    end.
  (** Names up to the word End. *)
  Fixpoint read_names (ws : list string) : option (list string * list string) :=
    match ws with
    | [] => Some ([], [])
    | w :: rest =>
      if (w =? "End")%string then Some ([], ws)
      else if is_name w then match read_names rest with Some (ns, r) => Some (w :: ns, r) | None => None end
      else None
    end.
  Definition read_lp (ws : list string) : option (lp_doc T) :=
    match ws with
    | mi :: lab :: ws1 =>
      if (mi =? "Minimize")%string then
      match label_of lab, read_terms (length ws1) ws1 with
      | Some lab, Some (obj, su :: to :: ws2) =>
        if (su =? "Subject")%string && (to =? "to")%string then
        match read_rows (length ws2) ws2 with
        | Some (rows, bo :: ws3) =>
          if (bo =? "Bounds")%string then
          match read_bounds (length ws3) ws3 with
          | Some (bounds, ge :: ws4) =>
            if (ge =? "General")%string then
            match read_names ws4 with
            | Some (names, [en]) => if (en =? "End")%string then Some (mk_doc lab obj rows bounds names) else None
            | _ => None
            end
            else None
          | _ => None
          end
          else None
        | _ => None
        end
        else None
      | _, _ => None
      end
      else None
    | _ => None
    end.
End Reader.

(** The name of variable [j] and the label of row [i]. *)
Definition xname (j : nat) : string := ("x_" ++ dec_nat j)%string.
Definition cname (i : nat) : string := ("c_" ++ dec_nat i)%string.
