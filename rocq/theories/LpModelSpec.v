(** Specification vocabulary: what an LP file asks for, over the real numbers. *)
From Verif Require Import Base Num Node Constraint ModelStd Model ExprSpec ConstrSpec ModelSpec Text SolverBase LpFile FmtProofs LpSpec SolFile SolSpec CmdSolver
     Properties_Lp Properties_Sol Properties_Cmd Properties_End ExactSpec.
From Coq Require Import Reals Floats.SpecFloat NArith.
Local Open Scope string_scope.
Local Open Scope list_scope.

(** [r] respects the lower (upper) bound written in the file, which may be infinite. *)
Definition above (l : F) (r : R) : Prop :=
  match l with S754_infinity s => s = true | S754_nan => False | _ => (fval l <= r)%R end.
Definition below (u : F) (r : R) : Prop :=
  match u with S754_infinity s => s = false | S754_nan => False | _ => (r <= fval u)%R end.
(** The point [g] (a number for each name) satisfies what the file says. *)
Definition doc_feasible (d : lp_doc F) (g : string -> R) : Prop :=
  Forall (row_holds g) (d_rows d) /\
  (forall lo nm hi, In (lo, nm, hi) (d_bounds d) -> above lo (g nm) /\ below hi (g nm)) /\
  (forall nm, In nm (d_general d) -> exists z, g nm = IZR z).
Definition doc_value (d : lp_doc F) (g : string -> R) : R := total (fun t => (fval (fst t) * g (snd t))%R) (d_obj d).
Definition doc_optimal (d : lp_doc F) (g : string -> R) : Prop :=
  doc_feasible d g /\ forall h, doc_feasible d h -> (doc_value d g <= doc_value d h)%R.
Definition doc_names (d : lp_doc F) : list string := map (fun e => snd (fst e)) (d_bounds d).

(** The largest integer whose text has all its digits (ten after the first). *)
Definition text_limit : N := 99999999999.
(** The two sides of a constraint do not differ by a constant. *)
Definition varies (c : constraint X) : Prop :=
  exists vs vs' a b, diff vs c = Some a /\ diff vs' c = Some b /\ a <> b.
(** A point of the file, as values of the variables behind its columns. *)
Definition file_vals (sp : std_prob F) (g : string -> R) : valsX :=
  map (fun vi => (exact_node (fst vi), Some (g (xname (snd vi))))) (sp_var2index sp).

(** The program behind the command is a correct solver: whenever it is run on a file that is a legal LP
    file and writes a solution file, then, if that starts with the word for "optimal", it lists an
    optimal point of the LP file (exactly, as far as the columns of the file go), and if it
    starts with the word for "infeasible", then the LP file has no feasible point. *)
Definition correct_program `{Num F} (t : tool) (o : osys) : Prop :=
  forall z1 z2 lvl f f2 text doc file,
    os_run o (program t) (arguments t z1 z2 lvl) f = (f2, true) ->
    f (input_name t z1) = Some text -> read_lp (words text) = Some doc -> f2 (output_name t z2) = Some file ->
    (header (is_cbc t) (part1 file) = Solved -> forall rs, Forall2 says (body (is_cbc t) file) rs ->
       exists g, doc_optimal doc g /\
         forall j, In (xname j) (doc_names doc) ->
           finiteb (final (value_of j) rs) = true /\ fval (final (value_of j) rs) = g (xname j)) /\
    (header (is_cbc t) (part1 file) = Infeasible -> forall g, ~ doc_feasible doc g).
