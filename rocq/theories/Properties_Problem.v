(** Property C73: problems constructed directly. *)
From Verif Require Import Base Num Matrix MatSpec NodeInd MatrixProofs SumDupProofs Problem ProblemProofs Properties_Matrix.
From Coq Require Import Floats.SpecFloat.

(** ** C73 What the constructors accept *)
Section Accept.
  Context {T : Type} `{Num T}.

  (** Of a Minlp: with [nx] columns of [a], all sizes agree. *)
  Definition sizes_agree (nx : nat) (hphi a : coo T) (b : list T) (j : coo T) (h : list (coo T)) (l u : list T) : Prop :=
    coo_cols a = nx /\ length b = coo_rows a /\ coo_rows hphi = nx /\ coo_cols hphi = nx /\
    coo_cols j = nx /\ coo_rows j = length h /\ Forall (fun hh => coo_rows hh = nx /\ coo_cols hh = nx) h /\
    length l = nx /\ length u = nx.

  Lemma wf_all (h : list (coo T)) : Forall coo_built h -> Forall coo_wf h.
  Proof. intros Hb. eapply Forall_impl; [|exact Hb]. intros; apply coo_built_wf; auto. Qed.
  Lemma dims_agree hphi a b j h l u p :
    dims_ok hphi a b j h l u p <-> sizes_agree (coo_cols a) hphi a b j h l u /\ length p = coo_cols a.
  Proof.
    unfold dims_ok, sizes_agree. rewrite Forall_forall. split.
    - intros (D1 & D2 & D3 & D4 & D5 & D6 & D7 & D8 & D9). repeat split; auto; apply D6; auto.
    - intros ((D0 & D3 & D2 & D1 & D4 & D5 & D6 & D7 & D8) & D9). repeat split; auto; apply D6; auto.
  Qed.

  Theorem C73_minlp hphi a b j (h : list (coo T)) l u p x0 ev : Forall coo_built h ->
    (sizes_agree (coo_cols a) hphi a b j h l u /\ length p = coo_cols a ->
     exists q, minlp_new hphi a b j h l u p x0 ev = Ok q) /\
    (~ (sizes_agree (coo_cols a) hphi a b j h l u /\ length p = coo_cols a) ->
     minlp_new hphi a b j h l u p x0 ev = Panic PAssert).
  Proof.
    intros Hb. apply wf_all in Hb. rewrite <- dims_agree. split.
    - intros D. rewrite minlp_new_ok by auto. eauto.
    - intros D. apply minlp_new_panic; auto.
  Qed.
  (** Of an Nlp: the same, without integrality flags; no variable is an integer. *)
  Theorem C73_nlp hphi a b j (h : list (coo T)) l u x0 ev : Forall coo_built h ->
    (sizes_agree (coo_cols a) hphi a b j h l u ->
     exists q, nlp_new hphi a b j h l u x0 ev = Ok q /\ m_p (nlp_base q) = repeat false (coo_cols a)) /\
    (~ sizes_agree (coo_cols a) hphi a b j h l u -> nlp_new hphi a b j h l u x0 ev = Panic PAssert).
  Proof.
    intros Hb. apply wf_all in Hb.
    assert (D : forall p, length p = coo_cols a -> (sizes_agree (coo_cols a) hphi a b j h l u <-> dims_ok hphi a b j h l u p))
      by (intros p Hp; rewrite dims_agree; tauto).
    unfold nlp_new. split; rewrite (D (repeat false (coo_cols a)) (repeat_length _ _)); intros Hd.
    - rewrite minlp_new_ok by auto. cbn [rbind]. eexists. split; reflexivity.
    - rewrite minlp_new_panic by auto. reflexivity.
  Qed.
  (** Of a Milp: the sizes of [b], [l], [u] and [p] must fit those of [a]; that of [c] is not looked at. *)
  Theorem C73_milp (c : list T) a b l u p x0 :
    (length b = coo_rows a /\ length l = coo_cols a /\ length u = coo_cols a /\ length p = coo_cols a ->
     exists q, milp_new c a b l u p x0 = Ok q) /\
    (~ (length b = coo_rows a /\ length l = coo_cols a /\ length u = coo_cols a /\ length p = coo_cols a) ->
     milp_new c a b l u p x0 = Panic PAssert).
  Proof.
    assert (D : (length b = coo_rows a /\ length l = coo_cols a /\ length u = coo_cols a /\ length p = coo_cols a) <->
                dims_ok (coo_from_nnz (coo_cols a) (coo_cols a) 0) a b (coo_from_nnz 0 (coo_cols a) 0) [] l u p).
    { unfold dims_ok. cbn. split; [intros (? & ? & ? & ?); repeat split; auto; destruct H4|intros (_ & _ & ? & _ & _ & _ & ? & ? & ?); auto]. }
    unfold milp_new. rewrite D. split; intros Hd.
    - rewrite minlp_new_ok by auto. cbn [rbind]. eauto.
    - rewrite minlp_new_panic by auto. reflexivity.
  Qed.
  (** Of an Lp: also that of [c]. *)
  Theorem C73_lp (c : list T) a b l u x0 :
    (length c = coo_cols a /\ length b = coo_rows a /\ length l = coo_cols a /\ length u = coo_cols a ->
     exists q, lp_new c a b l u x0 = Ok q) /\
    (~ (length c = coo_cols a /\ length b = coo_rows a /\ length l = coo_cols a /\ length u = coo_cols a) ->
     lp_new c a b l u x0 = Panic PAssert).
  Proof.
    unfold lp_new. split.
    - intros (Hc & Hb & Hl & Hu). destruct (C73_milp c a b l u (repeat false (length c)) x0) as [HM _].
      destruct HM as [q Eq]; [rewrite repeat_length; auto|]. rewrite Eq. cbn [rbind].
      destruct (C73_nlp (coo_from_nnz (length c) (length c) 0) a b (coo_from_nnz 0 (length c) 0) [] l u x0 (linear_eval c)) as [HN _]; [constructor|].
      destruct HN as (q' & Eq' & _); [|rewrite Eq'; cbn [rbind]; eauto].
      unfold sizes_agree. cbn. repeat split; auto.
    - intros Hn. destruct (C73_milp c a b l u (repeat false (length c)) x0) as [HM HP].
      assert (D : {length c = coo_cols a /\ length b = coo_rows a /\ length l = coo_cols a /\ length u = coo_cols a} + 
                  {~ (length b = coo_rows a /\ length l = coo_cols a /\ length u = coo_cols a /\ length (repeat false (length c)) = coo_cols a)}).
      { rewrite repeat_length. destruct (Nat.eq_dec (length c) (coo_cols a)), (Nat.eq_dec (length b) (coo_rows a)),
          (Nat.eq_dec (length l) (coo_cols a)), (Nat.eq_dec (length u) (coo_cols a)); (left; tauto) || (right; tauto). }
      destruct D as [D|D]; [contradiction|]. rewrite HP by exact D. reflexivity.
  Qed.

  (** ** What a new problem holds, and what a history of calls leaves of it *)
  (** The positions of the combined Hessian: those of all the Hessians one after the other. *)
  Theorem C73_new hphi a b j (h : list (coo T)) l u p x0 ev q0 : Forall coo_built h ->
    minlp_new hphi a b j h l u p x0 ev = Ok q0 ->
    m_x0 q0 = x0 /\ m_a q0 = a /\ m_b q0 = b /\ m_l q0 = l /\ m_u q0 = u /\ m_p q0 = p /\
    m_nx q0 = coo_cols a /\ m_na q0 = coo_rows a /\ m_nf q0 = coo_rows j /\
    b_hphi (m_bufs q0) = hphi /\ b_j (m_bufs q0) = j /\ b_h (m_bufs q0) = h /\
    b_phi (m_bufs q0) = n0 /\ b_gphi (m_bufs q0) = repeat n0 (coo_cols a) /\ b_f (m_bufs q0) = repeat n0 (coo_rows j) /\
    coo_rows (m_hcomb q0) = coo_cols a /\ coo_cols (m_hcomb q0) = coo_cols a /\
    combine (coo_ri (m_hcomb q0)) (coo_ci (m_hcomb q0)) = flat_map (fun hh => combine (coo_ri hh) (coo_ci hh)) h /\
    coo_data (m_hcomb q0) = repeat n0 (list_sum (map coo_nnz h)).
  Proof.
    intros Hb E. apply wf_all in Hb. destruct (minlp_new_inv _ _ _ _ _ _ _ _ _ _ _ Hb E) as [D ->].
    cbn. repeat split; auto.
    - unfold m_na; cbn. destruct D as (_ & _ & D & _). exact D.
    - unfold m_nf; cbn. apply repeat_length.
    - clear -Hb. induction Hb as [|m h [W1 W2] Hb IH]; [reflexivity|]. cbn [map concat flat_map]. rewrite <- IH.
      assert (G : forall A B (l1 l2 : list A) (r1 r2 : list B), length l1 = length r1 ->
                combine (l1 ++ l2) (r1 ++ r2) = combine l1 r1 ++ combine l2 r2).
      { intros A B l1. induction l1 as [|x l1 IHl]; intros l2 [|y r1] r2 Hl; try discriminate; cbn; auto. f_equal. apply IHl. cbn in Hl; lia. }
      apply G. lia.
  Qed.
  (** [evaluate] hands the current arrays and the point to the evaluation function of the problem,
      and keeps what that returns; nothing else changes.  (No length is looked at.) *)
  Theorem C73_evaluate (q : minlp T) x :
    match m_eval q (m_bufs q) x with
    | Panic e => minlp_evaluate q x = Panic e
    | Ok bf => exists q', minlp_evaluate q x = Ok q' /\ m_bufs q' = bf /\ m_hcomb q' = m_hcomb q /\ m_a q' = m_a q /\ m_b q' = m_b q /\
        m_l q' = m_l q /\ m_u q' = m_u q /\ m_p q' = m_p q /\ m_x0 q' = m_x0 q /\ m_eval q' = m_eval q
    end.
  Proof. unfold minlp_evaluate. destruct (m_eval q (m_bufs q) x) as [bf|e]; [|reflexivity]. eexists. split; [reflexivity|]. cbn. repeat split. Qed.
  (** Whatever [evaluate] and [combine_h] calls were made: the linear part, bounds, flags and
      initial point are those given, and, if the evaluation function does not resize arrays or move
      entries, all arrays and matrices keep their sizes and positions. *)
  Theorem C73_history hphi a b j (h : list (coo T)) l u p x0 ev q0 q : Forall coo_built h ->
    minlp_new hphi a b j h l u p x0 ev = Ok q0 -> evolves q0 q ->
    m_x0 q = x0 /\ m_a q = a /\ m_b q = b /\ m_l q = l /\ m_u q = u /\ m_p q = p /\ m_eval q = ev /\
    coo_ri (m_hcomb q) = coo_ri (m_hcomb q0) /\ coo_ci (m_hcomb q) = coo_ci (m_hcomb q0) /\
    (keeps_shape ev -> same_shape (m_bufs q0) (m_bufs q) /\ same_structure (m_hcomb q0) (m_hcomb q) /\
       m_nx q = m_nx q0 /\ m_na q = m_na q0 /\ m_nf q = m_nf q0).
  Proof.
    intros Hb E Hq. apply wf_all in Hb. destruct (minlp_new_inv _ _ _ _ _ _ _ _ _ _ _ Hb E) as [D ->].
    assert (G : m_x0 q = x0 /\ m_a q = a /\ m_b q = b /\ m_l q = l /\ m_u q = u /\ m_p q = p /\ m_eval q = ev /\
                coo_ri (m_hcomb q) = concat (map coo_ri h) /\ coo_ci (m_hcomb q) = concat (map coo_ci h)).
    { induction Hq as [|q1 x q2 _ IH Eq|q1 nu q2 _ IH Eq]; [cbn; repeat split| |]; destruct IH as (A1 & A2 & A3 & A4 & A5 & A6 & A7 & A8 & A9).
      - pose proof (C73_evaluate q1 x) as G. destruct (m_eval q1 (m_bufs q1) x); [|congruence].
        destruct G as (q' & E' & B1 & B2 & B3 & B4 & B5 & B6 & B7 & B8 & B9). assert (q' = q2) as -> by congruence. rewrite B2. repeat split; congruence.
      - unfold combine_h in Eq. apply rbind_ok in Eq as (? & _ & Eq). apply rbind_ok in Eq as (s & _ & Eq). injection Eq as <-. cbn. repeat split; assumption. }
    destruct G as (A1 & A2 & A3 & A4 & A5 & A6 & A7 & A8 & A9). repeat (split; [assumption|]). intros Hk.
    destruct (evolves_inv _ _ _ _ _ _ _ _ _ _ _ Hk Hb D Hq) as (bf & d & Hs & Hd & ->).
    split; [exact Hs|]. split; [|split; [reflexivity|split; [reflexivity|]]].
    - unfold same_structure. cbn. rewrite repeat_length. repeat split. exact Hd.
    - destruct Hs as (_ & S2 & _). exact S2.
  Qed.
  (** ** What [ProblemSol::new] returns: zeros for the variables (three times) and constraints *)
  Theorem C73_solution nx na nf : let s := @sol_new T _ nx na nf in
    s_x s = repeat n0 nx /\ s_lam s = repeat n0 na /\ s_nu s = repeat n0 nf /\ s_mu s = repeat n0 nx /\ s_pi s = repeat n0 nx.
  Proof. repeat split. Qed.
End Accept.

(** A Milp whose [c] has a wrong length is made; evaluating it panics. *)
Example C73_milp_wrong_c : exists q,
  @milp_new F NumF0 [fz 1] ex_a [fz 1] [fz 0; fz 0] [fz 1; fz 1] [false; true] None = Ok q /\
  @minlp_evaluate F (milp_base q) [fz 1; fz 1] = Panic PAssert /\ @minlp_evaluate F (milp_base q) [fz 1] = Panic PIndex.
Proof. eexists. split; [reflexivity|]. split; vm_compute; reflexivity. Qed.
(** The problem of [C41_example] meets the hypotheses, also after two calls. *)
Example C73_example : exists q0 q1 q2,
  @sizes_agree F 2 (mk_coo 2 2 [] [] []) ex_a [fz 1] ex_j [ex_h1; ex_h2] [fz 0; fz 0] [fz 1; fz 1] /\
  @minlp_new F NumF0 (mk_coo 2 2 [] [] []) ex_a [fz 1] ex_j [ex_h1; ex_h2] [fz 0; fz 0] [fz 1; fz 1] [false; true] None ex_ev = Ok q0 /\
  @minlp_evaluate F q0 [fz 3; fz 4] = Ok q1 /\ @combine_h F NumF0 q1 [fz 10; fz 100] = Ok q2 /\ @evolves F NumF0 q0 q2 /\
  combine (coo_ri (m_hcomb q2)) (coo_ci (m_hcomb q2)) = [(0, 0); (1, 0); (1, 1)].
Proof.
  do 3 eexists. split; [repeat split; repeat constructor|]. split; [reflexivity|]. split; [reflexivity|]. split; [vm_compute; reflexivity|].
  split; [|reflexivity]. eapply ev_comb with (nu := [fz 10; fz 100]); [eapply ev_eval with (x := [fz 3; fz 4]); [apply ev_start|reflexivity]|vm_compute; reflexivity].
Qed.
