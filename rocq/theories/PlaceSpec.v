(** Specification vocabulary: how the constraints of a model are arranged in its standard
    problem, for any numbers (and so for binary64), without anything about values. *)
From Verif Require Import Base Num Node NodeStd Constraint Matrix MatSpec Problem ModelStd ExprSpec ConstrSpec ModelSpec.

Section Place.
  Context {T : Type} `{Num T}.

  (** [v] is a variable of one of the sides of [c]. *)
  Definition constr_var (c : constraint T) (v : node T) : Prop := occurs v (clhs c) \/ occurs v (crhs c).
  (** Both sides are affine as far as the code recognises it. *)
  Definition affine_sides (c : constraint T) : Prop :=
    p_affine (std_properties (clhs c)) = true /\ p_affine (std_properties (crhs c)) = true.

  (** Equalities have no slack; the slack of an inequality is a new continuous
      variable, bounded by zero on the right side. *)
  Definition slack_any (k : nat) (cs : cstd T) (c : constraint T) (s : option (node T)) : Prop :=
    match s with
    | None => ckd c = Equal
    | Some v => (k <= nid v)%nat /\ (exists i nm, v = NVar i nm VarContinuous) /\ bounds_with cs c v n0
    end.

  (** Constraint [c] appears as [s] in the standard problem [sp] with nonlinear functions and
      bounds [cs]: as a bound of its only variable, as the linear row [r], whose entries are the
      variables of [c] and the slack, or as the nonlinear function [r], which depends on the same
      variables. *)
  Definition slot_any (k : nat) (cs : cstd T) (sp : std_prob T) (c : constraint T) (s : slot T) : Prop :=
    match s with
    | SBound v b => affine_sides c /\ bounds_with cs c v b /\ is_var v = true /\ forall w, constr_var c w <-> w = v
    | SRow r sl =>
      affine_sides c /\ hget Nat.eqb r (sp_acons sp) = Some c /\ slack_any k cs c sl /\
      (exists b, nth_error (m_b (base_of (sp_prob sp))) r = Some b) /\
      forall v i, In (v, i) (sp_var2index sp) ->
        ((exists a, In (r, i, a) (entries (m_a (base_of (sp_prob sp))))) <-> constr_var c v \/ sl = Some v)
    | SFun r sl =>
      ~ affine_sides c /\ hget Nat.eqb r (sp_jcons sp) = Some c /\ slack_any k cs c sl /\
      exists f, nth_error (cs_f cs) r = Some f /\ forall v, occurs v f <-> constr_var c v \/ sl = Some v
    end.

  (** The places of all the constraints of a model: one each; the row numbers and the function
      numbers are 0, 1, 2, ... in the order of the constraints; the bounds are those the
      constraints contribute; each slack belongs to one constraint. *)
  Record arranged (k : nat) (m : model T) (cs : cstd T) (sp : std_prob T) (slots : list (slot T)) : Prop := {
    ar_slots : Forall2 (slot_any k cs sp) (md_constraints m) slots;
    ar_rows : flat_map row_no slots = seq 0 (length (m_b (base_of (sp_prob sp))));
    ar_funs : flat_map fun_no slots = seq 0 (length (cs_f cs));
    ar_acons : length (sp_acons sp) = length (m_b (base_of (sp_prob sp)));
    ar_jcons : length (sp_jcons sp) = length (cs_f cs);
    ar_uppers : cs_u cs = uppers m slots;
    ar_lowers : cs_l cs = lowers m slots;
    ar_slacks : NoDup (flat_map slack_of slots)
  }.

  (** What the arrangement relies on about the comparison of numbers: it is transitive and, among
      numbers (what is [<=] itself: NaN is not), total; zero is within the default bounds, and
      minus one is not equal to zero. True of binary64 and of the reals (C67_binary64, C67_exact). *)
  Record number_order : Prop := {
    no_trans : forall a b c : T, nleb a b = true -> nleb b c = true -> nleb a c = true;
    no_total : forall a b : T, nleb a a = true -> nleb b b = true -> nleb a b = false -> nleb b a = true;
    no_num : forall a b : T, nleb a b = true -> nleb a a = true /\ nleb b b = true;
    no_box : nleb (nneg INF) (@n0 T _) = true /\ nleb (@n0 T _) INF = true;
    no_minus : neqb (@nm1 T _) n0 = false
  }.

  (** The bound of [v] among the contributed ones [bs]: at least as tight as the default [B] and
      as every bound that is a number ([better] is [<=] for upper and [>=] for lower bounds, false
      on NaN); the constraint held responsible is the last one that attains it, and there is none
      if no bound is as tight as the default. *)
  Definition tightest (better : T -> T -> bool) (B : T) (v : node T) (u : T) (oc : option (constraint T))
             (bs : list (node T * T * constraint T)) : Prop :=
    better u B = true /\
    (forall b c, In (v, b, c) bs -> better b b = true -> better u b = true) /\
    match oc with
    | Some c => exists l1 l2, bs = l1 ++ (v, u, c) :: l2 /\ forall b c', In (v, b, c') l2 -> better b u = false
    | None => u = B /\ forall b c, In (v, b, c) bs -> better b B = false
    end.
End Place.
