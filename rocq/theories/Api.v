(** Histories of expression-building API calls.

    A program is a sequence of calls; each call takes its operands from the pool
    of expressions obtained so far and its result joins the pool. *)
From Verif Require Import Base Num Node NodeDiff.

Inductive op (T : Type) : Type :=
| OVar (s : string) (kd : varkind)      (* VariableScalar::new_continuous / new_integer *)
| OConst (v : T)                        (* ConstantScalar::new *)
| OAddNN (i j : nat) | OAddNS (i : nat) (v : T) | OAddSN (v : T) (i : nat)
| OMulNN (i j : nat) | OMulNS (i : nat) (v : T) | OMulSN (v : T) (i : nat)
| OSubNN (i j : nat) | OSubNS (i : nat) (v : T) | OSubSN (v : T) (i : nat)
| ODivNN (i j : nat) | ODivNS (i : nat) (v : T) | ODivSN (v : T) (i : nat)
| ONeg (i : nat) | OSin (i : nat) | OCos (i : nat)
| OClone (i : nat)                      (* Clone: the same Rc *)
| OArg (i j : nat)                      (* arguments()[j] *)
| OPartial (i j : nat)                  (* partial(&arg) *)
| ODeriv (i j : nat).                   (* derivative(&var) *)
Arguments OVar {T}. Arguments OConst {T}. Arguments OAddNN {T}. Arguments OAddNS {T}.
Arguments OAddSN {T}. Arguments OMulNN {T}. Arguments OMulNS {T}. Arguments OMulSN {T}.
Arguments OSubNN {T}. Arguments OSubNS {T}. Arguments OSubSN {T}. Arguments ODivNN {T}.
Arguments ODivNS {T}. Arguments ODivSN {T}. Arguments ONeg {T}. Arguments OSin {T}.
Arguments OCos {T}. Arguments OClone {T}. Arguments OArg {T}. Arguments OPartial {T}.
Arguments ODeriv {T}.

Section Api.
  Context {T : Type} `{Num T} `{HashOrd}.

  Definition with1 (pool : list (node T)) (i : nat) (f : node T -> M (node T)) : M (node T) :=
    match nth_error pool i with Some a => f a | None => fail PIndex end.
  Definition with2 (pool : list (node T)) (i j : nat) (f : node T -> node T -> M (node T)) : M (node T) :=
    with1 pool i (fun a => with1 pool j (fun b => f a b)).

  Definition exec (pool : list (node T)) (o : op T) : M (node T) :=
    match o with
    | OVar s kd => mk_var s kd
    | OConst v => mk_const v
    | OAddNN i j => with2 pool i j add_nn
    | OAddNS i v => with1 pool i (fun a => add_ns a v)
    | OAddSN v i => with1 pool i (fun a => add_sn v a)
    | OMulNN i j => with2 pool i j mul_nn
    | OMulNS i v => with1 pool i (fun a => mul_ns a v)
    | OMulSN v i => with1 pool i (fun a => mul_sn v a)
    | OSubNN i j => with2 pool i j sub_nn
    | OSubNS i v => with1 pool i (fun a => sub_ns a v)
    | OSubSN v i => with1 pool i (fun a => sub_sn v a)
    | ODivNN i j => with2 pool i j div_nn
    | ODivNS i v => with1 pool i (fun a => div_ns a v)
    | ODivSN v i => with1 pool i (fun a => div_sn v a)
    | ONeg i => with1 pool i neg_n
    | OSin i => with1 pool i sin_n
    | OCos i => with1 pool i cos_n
    | OClone i => with1 pool i ret
    | OArg i j => with1 pool i (fun a => with1 (arguments a) j ret)
    | OPartial i j => with2 pool i j partial
    | ODeriv i j => with2 pool i j derivative
    end.

End Api.

Section Reach.
  Context {T : Type} `{Num T}.

  (** [reach P k pool]: some history of calls, each satisfying [P], leaves the
      expressions [pool] and [k] allocated cells.  (A call that panics yields
      no expression and ends the history.)  Every call may see its own hash
      iteration order, as every map of the standard library has its own seed. *)
  Inductive reach (P : list (node T) -> op T -> Prop) : nat -> list (node T) -> Prop :=
  | reach_nil : reach P 0 []
  | reach_step {HO : HashOrd} k pool o n k' :
      reach P k pool -> P pool o -> exec pool o k = Ok (n, k') -> reach P k' (pool ++ [n]).

  (** Any call at all. *)
  Definition any_op (pool : list (node T)) (o : op T) : Prop := True.
  (** Any call except a quotient of an expression by itself (the same node). *)
  Definition no_self_quotient (pool : list (node T)) (o : op T) : Prop :=
    match o with
    | ODivNN i j => forall a b, nth_error pool i = Some a -> nth_error pool j = Some b -> ptr_eq a b = false
    | _ => True
    end.
  (** The calls of the affine grammar: sums, differences, negation, product with
      a scalar or a constant, quotient by a scalar or a constant. *)
  Definition affine_op (pool : list (node T)) (o : op T) : Prop :=
    match o with
    | OMulNN i j => forall a b, nth_error pool i = Some a -> nth_error pool j = Some b ->
                    is_constant a = true \/ is_constant b = true
    | ODivNN i j => forall b, nth_error pool j = Some b -> is_constant b = true
    | ODivSN _ j => forall b, nth_error pool j = Some b -> is_constant b = true
    | OSin i | OCos i => forall a, nth_error pool i = Some a -> is_constant a = true
    | OPartial _ _ | ODeriv _ _ => False
    | _ => True
    end.

End Reach.

Section Run.
  Context {T : Type} `{Num T} `{HashOrd}.

  (** Running a concrete program, for examples. *)
  Fixpoint run (ops : list (op T)) (k : nat) (pool : list (node T)) : res (nat * list (node T)) :=
    match ops with
    | [] => Ok (k, pool)
    | o :: ops' =>
      match exec pool o k with
      | Ok (n, k') => run ops' k' (pool ++ [n])
      | Panic p => Panic p
      end
    end.

  Lemma run_reach ops k pool k' pool' :
    reach any_op k pool -> run ops k pool = Ok (k', pool') -> reach any_op k' pool'.
  Proof.
    revert k pool; induction ops as [|o ops IH]; intros k pool Hr E; cbn in E.
    - inversion E; subst; auto.
    - destruct (exec pool o k) as [[n k1]|p] eqn:Eo; [|discriminate].
      eapply IH; [|exact E]. eapply reach_step; eauto. exact I.
  Qed.
  Lemma run_reach_P (P : list (node T) -> op T -> Prop) ops k pool k' pool' :
    reach P k pool -> Forall (fun o => forall pool, P pool o) ops ->
    run ops k pool = Ok (k', pool') -> reach P k' pool'.
  Proof.
    intros Hr Hf; revert k pool Hr; induction Hf as [|o ops Ho Hf IH]; intros k pool Hr E; cbn in E.
    - inversion E; subst; auto.
    - destruct (exec pool o k) as [[n k1]|p] eqn:Eo; [|discriminate].
      eapply IH; [|exact E]. eapply reach_step; eauto.
  Qed.
End Run.
