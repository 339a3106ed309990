(** Base vocabulary of the model: outcomes, the allocation monad, hash maps.

    Rust panics are explicit outcomes; allocation of [Rc] cells is a counter
    threaded through a state monad; hash maps are association lists whose
    iteration order is an arbitrary permutation. *)
From Coq Require Export Ascii String Arith ZArith Lia Bool Permutation List.
Export ListNotations.
Open Scope list_scope.

(** Why a call panicked.
    - [PDivZero]     node.rs:477,513,545  [panic!("dividion by zero constant")]
    - [PAssert]      a failed [assert!]/[assert_eq!]
    - [PUnwrap]      [unwrap] of [None]
    - [PVarExpected] node_diff.rs:33,96  [panic!("variable expected")]
    - [PIndex]       slice index out of range, or slices of different length copied
    - [PKind]        constraint_std.rs:121,154,197  [panic!("unexpected constraint type")]
    - [PFuel]        not a Rust panic: the model's loop counter ran out
                     (proved unreachable in [PathProofs.v]). *)
Inductive panic := PDivZero | PAssert | PUnwrap | PVarExpected | PIndex | PKind | PFuel.

Inductive res (A : Type) : Type :=
| Ok (a : A)
| Panic (p : panic).
Arguments Ok {A} a.
Arguments Panic {A} p.

Definition rbind {A B} (m : res A) (f : A -> res B) : res B :=
  match m with Ok a => f a | Panic p => Panic p end.

Definition unwrap {A} (o : option A) : res A :=
  match o with Some a => Ok a | None => Panic PUnwrap end.

Definition rassert (b : bool) : res unit := if b then Ok tt else Panic PAssert.

(** Allocation monad: the state is the number of [Rc] cells allocated so far. *)
Definition M (A : Type) : Type := nat -> res (A * nat).
Definition ret {A} (a : A) : M A := fun k => Ok (a, k).
Definition bind {A B} (m : M A) (f : A -> M B) : M B :=
  fun k => match m k with Ok (a, k') => f a k' | Panic p => Panic p end.
Definition fail {A} (p : panic) : M A := fun _ => Panic p.
Definition lift {A} (r : res A) : M A :=
  fun k => match r with Ok a => Ok (a, k) | Panic p => Panic p end.
(** The current time (number of allocations); used only to index hash orders. *)
Definition now : M nat := fun k => Ok (k, k).

Declare Scope m_scope.
Delimit Scope m_scope with m.
Notation "x <- m ;; f" := (bind m (fun x => f))
  (at level 61, m at next level, right associativity) : m_scope.
Notation "' p <- m ;; f" := (bind m (fun x => match x with p => f end))
  (at level 61, p pattern, m at next level, right associativity) : m_scope.
Declare Scope r_scope.
Delimit Scope r_scope with r.
Notation "x <- m ;; f" := (rbind m (fun x => f))
  (at level 61, m at next level, right associativity) : r_scope.
Notation "' p <- m ;; f" := (rbind m (fun x => match x with p => f end))
  (at level 61, p pattern, m at next level, right associativity) : r_scope.

(** [iter().map(f).collect()] and [for] loops with a fallible, allocating body. *)
Section Loops.
  Context {A B S : Type}.
  Variable f : A -> M B.
  Fixpoint mapM (l : list A) : M (list B) :=
    match l with
    | [] => ret []
    | a :: l' => bind (f a) (fun b => bind (mapM l') (fun bs => ret (b :: bs)))
    end.
  Variable g : S -> A -> M S.
  Fixpoint foldM (l : list A) (s : S) : M S :=
    match l with
    | [] => ret s
    | a :: l' => bind (g s a) (fun s' => foldM l' s')
    end.
  Variable h : S -> A -> res S.
  Fixpoint foldR (l : list A) (s : S) : res S :=
    match l with
    | [] => Ok s
    | a :: l' => rbind (h s a) (fun s' => foldR l' s')
    end.
  Variable q : A -> res B.
  Fixpoint mapR (l : list A) : res (list B) :=
    match l with
    | [] => Ok []
    | a :: l' => rbind (q a) (fun b => rbind (mapR l') (fun bs => Ok (b :: bs)))
    end.
End Loops.

(** Vector element access and update, [v[i]] and [v[i] = x]. *)
Definition vget {A} (l : list A) (i : nat) : res A :=
  match nth_error l i with Some a => Ok a | None => Panic PIndex end.
Fixpoint set_nth {A} (l : list A) (i : nat) (x : A) : list A :=
  match l, i with
  | [], _ => []
  | _ :: l', O => x :: l'
  | a :: l', S i' => a :: set_nth l' i' x
  end.
Definition vset {A} (l : list A) (i : nat) (x : A) : res (list A) :=
  if i <? length l then Ok (set_nth l i x) else Panic PIndex.

(** ** Hash maps

    [std::collections::HashMap] with keys compared by [eqb]: an association
    list in insertion order with distinct keys. *)
Section HashMap.
  Context {K V : Type}.
  Variable eqb : K -> K -> bool.
  Fixpoint hget (k : K) (m : list (K * V)) : option V :=
    match m with
    | [] => None
    | (k', v) :: m' => if eqb k k' then Some v else hget k m'
    end.
  (** [HashMap::insert] keeps the old key object when the key is present. *)
  Fixpoint hinsert (k : K) (v : V) (m : list (K * V)) : list (K * V) :=
    match m with
    | [] => [(k, v)]
    | (k', v') :: m' => if eqb k k' then (k', v) :: m' else (k', v') :: hinsert k v m'
    end.
  Definition hcontains (k : K) (m : list (K * V)) : bool :=
    match hget k m with Some _ => true | None => false end.
End HashMap.

(** [HashSet] built from a sequence: first occurrences, in order. *)
Section HashSet.
  Context {K : Type}.
  Variable eqb : K -> K -> bool.
  Definition smem (k : K) (s : list K) : bool := existsb (eqb k) s.
  Definition sadd (s : list K) (k : K) : list K := if smem k s then s else s ++ [k].
  Definition sextend (s : list K) (l : list K) : list K := fold_left sadd l s.
End HashSet.

(** Iteration order of a hash map or set: an arbitrary permutation of its
    entries, which may differ at every place in the program ([site]) and at
    every moment [t] of the execution.  The real order is a function of the
    map's random seed; quantifying over every instance of this class covers
    every seed. *)
Class HashOrd := {
  ord : forall {A : Type} (site t : nat), list A -> list A;
  ord_perm : forall (A : Type) (site t : nat) (l : list A), Permutation (ord site t l) l
}.

(** Two concrete orders, used in examples: insertion order and its reverse. *)
Definition ord_id : HashOrd.
Proof. refine {| ord := fun A _ _ l => l |}. intros; apply Permutation_refl. Defined.
Definition ord_rev : HashOrd.
Proof.
  refine {| ord := fun A _ _ l => rev l |}.
  intros; apply Permutation_sym, Permutation_rev.
Defined.
