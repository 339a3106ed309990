(** Induction over expressions, sub-expressions, variables of an expression. *)
From Verif Require Import Base Num Node NodeDiff.
From Verif Require Export ExprSpec.

Section Ind.
  Context {T : Type}.
  Variable P : node T -> Prop.
  Hypothesis Hconst : forall i v, P (NConst i v).
  Hypothesis Hvar : forall i s k, P (NVar i s k).
  Hypothesis Hadd : forall i args, Forall P args -> P (NAdd i args).
  Hypothesis Hcos : forall i a, P a -> P (NCos i a).
  Hypothesis Hdiv : forall i a b, P a -> P b -> P (NDiv i a b).
  Hypothesis Hmul : forall i a b, P a -> P b -> P (NMul i a b).
  Hypothesis Hsin : forall i a, P a -> P (NSin i a).

  Fixpoint node_ind' (n : node T) : P n :=
    match n return P n with
    | NConst i v => Hconst i v
    | NVar i s k => Hvar i s k
    | NAdd i args =>
      Hadd i args ((fix go (l : list (node T)) : Forall P l :=
                      match l with
                      | [] => Forall_nil P
                      | a :: l' => Forall_cons a (node_ind' a) (go l')
                      end) args)
    | NCos i a => Hcos i a (node_ind' a)
    | NDiv i a b => Hdiv i a b (node_ind' a) (node_ind' b)
    | NMul i a b => Hmul i a b (node_ind' a) (node_ind' b)
    | NSin i a => Hsin i a (node_ind' a)
    end.
End Ind.

(** Induction with the hypothesis for every argument. *)
Lemma node_ind_args {T} (P : node T -> Prop) :
  (forall n, (forall c, In c (arguments n) -> P c) -> P n) -> forall n, P n.
Proof.
  intros Hstep n. induction n using node_ind'; apply Hstep; cbn [arguments]; intros c Hc.
  - destruct Hc.
  - destruct Hc.
  - rewrite Forall_forall in H. auto.
  - destruct Hc as [<-|[]]; auto.
  - destruct Hc as [<-|[<-|[]]]; auto.
  - destruct Hc as [<-|[<-|[]]]; auto.
  - destruct Hc as [<-|[]]; auto.
Qed.


Lemma sub_trans {T} (a b c : node T) : sub a b -> sub b c -> sub a c.
Proof.
  intros Hab Hbc; revert a Hab.
  induction Hbc as [n|s ch n Hin Hs IH]; intros a Hab; [exact Hab|].
  eapply sub_arg; [exact Hin|]. apply IH; exact Hab.
Qed.

Lemma ptr_eq_refl {T} (n : node T) : ptr_eq n n = true.
Proof. destruct n; cbn; apply Nat.eqb_refl. Qed.

Lemma ptr_eq_sym {T} (a b : node T) : ptr_eq a b = ptr_eq b a.
Proof. destruct a, b; cbn; try reflexivity; apply Nat.eqb_sym. Qed.

Lemma ptr_eq_nid {T} (a b : node T) : ptr_eq a b = true -> nid a = nid b.
Proof. destruct a, b; cbn; try discriminate; apply Nat.eqb_eq. Qed.

Lemma ptr_eq_trans {T} (a b c : node T) :
  ptr_eq a b = true -> ptr_eq b c = true -> ptr_eq a c = true.
Proof.
  destruct a, b; cbn; try discriminate; destruct c; cbn; try discriminate;
    intros H1 H2; apply Nat.eqb_eq in H1; apply Nat.eqb_eq in H2;
      apply Nat.eqb_eq; congruence.
Qed.

Lemma ptr_eq_is_var {T} (a b : node T) : ptr_eq a b = true -> is_var a = is_var b.
Proof. destruct a, b; cbn; try discriminate; reflexivity. Qed.

(** [mapM]/[foldM] facts. *)
Lemma bind_ok {A B} (m : M A) (f : A -> M B) k b k'' :
  bind m f k = Ok (b, k'') <->
  exists a k', m k = Ok (a, k') /\ f a k' = Ok (b, k'').
Proof.
  unfold bind; split.
  - destruct (m k) as [[a k']|p]; [|discriminate]. intros H; exists a, k'; auto.
  - intros (a & k' & Hm & Hf). rewrite Hm; exact Hf.
Qed.

Lemma bind_panic {A B} (m : M A) (f : A -> M B) k p :
  bind m f k = Panic p <->
  m k = Panic p \/ exists a k', m k = Ok (a, k') /\ f a k' = Panic p.
Proof.
  unfold bind; split.
  - destruct (m k) as [[a k']|p']; [|intros H; left; congruence].
    intros H; right; exists a, k'; auto.
  - intros [Hm|(a & k' & Hm & Hf)]; rewrite Hm; [reflexivity|exact Hf].
Qed.

Lemma rbind_ok {A B} (m : res A) (f : A -> res B) b :
  rbind m f = Ok b <-> exists a, m = Ok a /\ f a = Ok b.
Proof.
  unfold rbind; split.
  - destruct m as [a|p]; [|discriminate]; intros H; exists a; auto.
  - intros (a & Hm & Hf); rewrite Hm; exact Hf.
Qed.

Lemma lift_ok {A} (r : res A) k a k' : lift r k = Ok (a, k') <-> r = Ok a /\ k' = k.
Proof.
  unfold lift; destruct r as [x|p]; split; intros H.
  - inversion H; auto.
  - destruct H as [H ->]; inversion H; auto.
  - discriminate.
  - destruct H as [H _]; discriminate.
Qed.

Lemma mapM_nil {A B} (f : A -> M B) k : mapM f [] k = Ok ([], k).
Proof. reflexivity. Qed.
Lemma mapM_cons_ok {A B} (f : A -> M B) a l k r k'' :
  mapM f (a :: l) k = Ok (r, k'') <->
  exists b k1 bs, f a k = Ok (b, k1) /\ mapM f l k1 = Ok (bs, k'') /\ r = b :: bs.
Proof.
  cbn [mapM]. rewrite bind_ok. split.
  - intros (b & k1 & Hf & Hb). apply bind_ok in Hb as (bs & k2 & Hm & Hr).
    inversion Hr; subst. eauto 8.
  - intros (b & k1 & bs & Hf & Hm & ->). exists b, k1; split; [exact Hf|].
    apply bind_ok. exists bs, k''; split; [exact Hm|reflexivity].
Qed.

Lemma foldM_cons_ok {A S} (g : S -> A -> M S) a l s k r k'' :
  foldM g (a :: l) s k = Ok (r, k'') <->
  exists s' k1, g s a k = Ok (s', k1) /\ foldM g l s' k1 = Ok (r, k'').
Proof. cbn [foldM]. rewrite bind_ok. reflexivity. Qed.

Lemma foldM_app {A S} (g : S -> A -> M S) l1 l2 s k :
  foldM g (l1 ++ l2) s k = bind (foldM g l1 s) (fun s' => foldM g l2 s') k.
Proof.
  revert s k; induction l1 as [|a l1 IH]; intros s k; cbn [foldM app].
  - reflexivity.
  - unfold bind at 1 2 3. destruct (g s a k) as [[s' k']|p]; [|reflexivity].
    rewrite IH. unfold bind. reflexivity.
Qed.
