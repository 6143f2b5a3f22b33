(** Properties C10-C15, C19, C44: transforms and events (src/transforms.py, src/poly.py).
    Vocabulary (TransSpec.v): [teval t w] the value of a transform at an assignment of
    finite reals and strings, [value t w x] that it is the number x, [holds]/[fails] truth
    and falsity of an event, [good] the transforms the solver is claimed to handle,
    [regular] the points away from singularities.  [po] is the SymPy oracle, [fuel] a bound
    on the depth of recursion of invert, both arbitrary. *)
From Coq Require Import List Bool String Reals Lra Lia ZArith QArith Qreals.
From Verif Require Import Base Num Sets SetSpec SetIv SetProofs SetOr SetOps SetAlg SetBuilt
  Poly Trans TransSpec TransFacts PolyProofs InvProofs InvMain EvProofs ArithProofs PolyEx.
Import ListNotations.
Local Open Scope R_scope.
Local Open Scope string_scope.

Section Props.
  Context {N : numsys} (io : iterorder N) (po : polyoracle N) (fuel : nat).
  Notation tr := (tr N).
  Implicit Types (t u e : tr).

  (** C10 *)
  Theorem C10_invert_exact : forall X t s r,
    good t -> realv t -> only X t -> wf s -> inffree s -> invert io po fuel t s = Ok r ->
    forall w, regular false t w -> (fm (w X) r <-> exists y, value t w y /\ fm (FNum y) s).
  Proof.
    intros X t s r G Rt On W If H w Rw. destruct (invert_ok io po fuel X t G On) as (A & _).
    destruct (A Rt false s r) as (_ & _ & B); auto. now apply B.
  Qed.
  (** with infinities allowed in the set, at points regular in the stronger sense *)
  Theorem C10_invert_exact_infinite : forall X t s r,
    good t -> realv t -> only X t -> wf s -> invert io po fuel t s = Ok r ->
    forall w, regular true t w -> (fm (w X) r <-> exists y, value t w y /\ fm (FNum y) s).
  Proof.
    intros X t s r G Rt On W H w Rw. destruct (invert_ok io po fuel X t G On) as (A & _).
    destruct (A Rt true s r) as (_ & _ & B); auto; [discriminate|]. now apply B.
  Qed.
  (** without logarithm, Piecewise and nominal event there is no singular point *)
  Theorem C10_invert_exact_plain : forall X t s r,
    good t -> realv t -> only X t -> plain t -> wf s -> inffree s -> invert io po fuel t s = Ok r ->
    forall w, fm (w X) r <-> exists y, value t w y /\ fm (FNum y) s.
  Proof. intros. eapply C10_invert_exact; eauto. now apply plain_regular. Qed.
  (** the events of a Piecewise accepted by its constructor are disjoint at regular points *)
  Theorem C10_piecewise_disjoint : forall ss es r,
    Piecewise io po fuel ss es = Ok r -> Forall (fun t => good t /\ realv t) ss -> Forall gev es ->
    r = TPiece (combine ss es) /\ good r /\ realv r /\
    forall w b, (forall e, In e es -> regular b e w) -> ForallOrdPairs (fun e f => ~ (holds e w /\ holds f w)) es.
  Proof.
    intros ss es r H Gs Ge. destruct (Piecewise_good io po fuel _ _ _ H Gs Ge) as (G & Rr).
    pose proof H as H'. apply Piecewise_shape in H'. split; [apply H'|]. split; [auto|]. split; [auto|].
    apply (Piecewise_disjoint io po fuel ss es r); auto. eapply Forall_impl; [|exact Gs]. intros t (K & _). exact K.
  Qed.

  (** C11 *)
  Theorem C11_solve_exact : forall X e r b, gev e -> only X e -> solve io po fuel e = Ok r ->
    wf r /\ forall w, regular b e w -> (fm (w X) r <-> holds e w).
  Proof. intros X e r b (G & E) On H. now apply (solve_ok io po fuel X e r b). Qed.
  Theorem C11_solve_exact_plain : forall X e r, gev e -> only X e -> plain e -> solve io po fuel e = Ok r ->
    forall w, fm (w X) r <-> holds e w.
  Proof. intros X e r G On P H w. destruct (C11_solve_exact X e r false G On H) as (_ & K). apply K. now apply plain_regular. Qed.

  (** C12 *)
  Definition num_transform t : Prop := good t /\ realv t.
  Theorem C12_add_number : forall t c r, num_transform t -> add_num t c = Ok r ->
    num_transform r /\ forall w y, value r w y <-> exists x, value t w x /\ y = x + toR c.
  Proof. intros t c r (G & Rt) H. apply add_num_ok in H; auto. unfold num_transform. tauto. Qed.
  Theorem C12_sub_number : forall t c r, num_transform t -> sub_num t c = Ok r ->
    num_transform r /\ forall w y, value r w y <-> exists x, value t w x /\ y = x - toR c.
  Proof. intros t c r (G & Rt) H. apply sub_num_ok in H; auto. unfold num_transform. tauto. Qed.
  Theorem C12_mul_number : forall t c r, num_transform t -> mul_num t c = Ok r ->
    num_transform r /\ forall w y, value r w y <-> exists x, value t w x /\ y = toR c * x.
  Proof. intros t c r (G & Rt) H. apply mul_num_ok in H; auto. unfold num_transform. tauto. Qed.
  Theorem C12_div_number : forall t c r, num_transform t -> div_num t c = Ok r ->
    num_transform r /\ toR c <> 0 /\ forall w y, value r w y <-> exists x, value t w x /\ y = x / toR c.
  Proof. intros t c r (G & Rt) H. apply div_num_ok in H; auto. unfold num_transform. tauto. Qed.
  Theorem C12_div_by_transform : forall c t r, num_transform t -> rdiv_num c t = Ok r ->
    num_transform r /\ forall w y, value r w y <-> exists x, value t w x /\ x <> 0 /\ y = toR c / x.
  Proof. intros t c r (G & Rt) H. apply rdiv_num_ok in H; auto. unfold num_transform. tauto. Qed.
  Theorem C12_neg : forall t r, num_transform t -> t_neg t = Ok r ->
    num_transform r /\ forall w y, value r w y <-> exists x, value t w x /\ y = - x.
  Proof. intros t r (G & Rt) H. apply t_neg_ok in H; auto. unfold num_transform. tauto. Qed.
  Theorem C12_abs : forall t, num_transform t ->
    num_transform (t_abs t) /\ forall w y, value (t_abs t) w y <-> exists x, value t w x /\ y = Rabs x.
  Proof. intros t (G & Rt). pose proof (t_abs_ok t G Rt). unfold num_transform. tauto. Qed.
  (** + of two transforms, unless both are Piecewise *)
  Theorem C12_add : forall t u r, num_transform t -> t_add io po fuel t u = Ok r ->
    (forall l m, t = TPiece l -> u = TPiece m -> False) ->
    num_transform r /\ forall w z, value r w z <-> exists x y, value t w x /\ value u w y /\ z = x + y.
  Proof. intros t u r (G & Rt) H Np. apply t_add_ok in H; auto. unfold num_transform. tauto. Qed.
  (** + of two Piecewise: the sum of value times indicator over all pieces, defined where some
      event is true *)
  Theorem C12_add_piecewise : forall l m r, good (TPiece l) -> good (TPiece m) ->
    t_add io po fuel (TPiece l) (TPiece m) = Ok r ->
    num_transform r /\ forall w b, (forall p, In p (l ++ m) -> regular b (snd p) w) ->
      forall z, value r w z <-> (exists p, In p (l ++ m) /\ holds (snd p) w) /\
                                exists x y, sum_val l w x /\ sum_val m w y /\ z = x + y.
  Proof.
    intros l m r Gl Gm H. apply t_add_pieces in H; auto. destruct H as (A & B & C).
    split; [split; auto|]. intros w b Rg z. now apply (C w b).
  Qed.
  Theorem C12_sub : forall t u r, num_transform t -> num_transform u -> t_sub io po fuel t u = Ok r ->
    num_transform r /\ forall w z, value r w z <-> exists x y, value t w x /\ value u w y /\ z = x - y.
  Proof. intros t u r (G & Rt) (Gu & Ru) H. apply t_sub_ok in H; auto. unfold num_transform. tauto. Qed.
  Theorem C12_mul : forall t u r, num_transform t -> num_transform u -> is_event t = false -> is_event u = false ->
    t_mul io po fuel t u = Ok r ->
    num_transform r /\ forall w z, value r w z <-> exists x y, value t w x /\ value u w y /\ z = x * y.
  Proof. intros t u r (G & Rt) (Gu & Ru) Et Eu H. apply t_mul_ok in H; auto. unfold num_transform. tauto. Qed.
  (** event * transform restricts the transform to the event *)
  Theorem C12_mul_event : forall t e r, num_transform t -> gev e ->
    t_mul io po fuel e t = Ok r \/ (is_event t = false /\ t_mul io po fuel t e = Ok r) ->
    num_transform r /\ forall w y, value r w y <-> holds e w /\ value t w y.
  Proof. intros t e r (G & Rt) Ge H. apply t_mul_event in H; auto. unfold num_transform. tauto. Qed.
  Theorem C12_pow_positive : forall t p r, num_transform t -> pow_int t (Zpos p) = Ok r ->
    num_transform r /\ forall w y, value r w y <-> exists x, value t w x /\ y = x ^ Pos.to_nat p.
  Proof. intros t p r (G & Rt) H. apply pow_int_pos in H; auto. unfold num_transform. tauto. Qed.
  Theorem C12_pow_negative : forall t p r, num_transform t -> pow_int t (Zneg p) = Ok r ->
    num_transform r /\ forall w y, value r w y <-> exists x, value t w x /\ x <> 0 /\ y = / x ^ Pos.to_nat p.
  Proof. intros t p r (G & Rt) H. apply pow_int_neg in H; auto. unfold num_transform. tauto. Qed.
  (** t ** (1/d): the non-negative number whose d-th power is t *)
  Theorem C12_root : forall t d r, num_transform t -> pow_rat t 1 d = Ok r ->
    num_transform r /\ forall w y, value r w y <-> 0 <= y /\ value t w (y ^ Pos.to_nat d).
  Proof.
    intros t d r (G & Rt) H. injection H as <-. split; [split; simpl; auto|]. intros w y. rewrite val_radical. split.
    - intros (x & H1 & H2). apply f_root_spec in H2. destruct H2 as (H2 & <-). auto.
    - intros (H1 & H2). eexists. split; [exact H2|]. apply f_root_spec. auto.
  Qed.
  Theorem C12_root_reciprocal : forall t d r, num_transform t -> pow_rat t (-1) d = Ok r ->
    num_transform r /\ forall w y, value r w y <-> 0 < y /\ exists x, value t w x /\ (/ y) ^ Pos.to_nat d = x.
  Proof.
    intros t d r (G & Rt) H. injection H as <-. split; [split; simpl; auto|]. intros w y. rewrite val_recip. split.
    - intros (x & H1 & H2 & ->). apply val_radical in H1. destruct H1 as (z & H1 & H3). apply f_root_spec in H3.
      destruct H3 as (H3 & <-). split; [apply Rinv_0_lt_compat; lra|]. exists (x ^ Pos.to_nat d). split; auto. now rewrite Rinv_inv.
    - intros (H1 & x & H2 & <-). exists (/ y). split; [|split; [apply Rinv_neq_0_compat; lra|now rewrite Rinv_inv]].
      apply val_radical. eexists. split; [exact H2|]. apply f_root_spec. split; auto. left. now apply Rinv_0_lt_compat.
  Qed.
  (** base ** t *)
  Theorem C12_exponential : forall c t r, num_transform t -> rpow_num c t = Ok r ->
    0 < toR c /\ forall w y, value r w y <-> exists x, value t w x /\ y = Rpower (toR c) x.
  Proof.
    intros c t r (G & Rt) H. unfold rpow_num in H. destruct (nleb c (nint 0)) eqn:E; [discriminate|]. injection H as <-. split.
    - apply Rnot_le_lt. intros K. enough (nleb c (nint 0) = true) by congruence. apply nleb_ok. now rewrite nint_ok.
    - intros w y. apply val_exp.
  Qed.
  Theorem C12_logarithm : forall t c r, num_transform t -> Logarithm t c = Ok r ->
    num_transform r /\ forall w y, value r w y <-> value t w (Rpower (toR c) y).
  Proof.
    intros t c r (G & Rt) H. unfold Logarithm in H. inv_bind H. injection H as <-.
    assert (C : 1 < toR c). { unfold passert in E. destruct (nltb (nint 1) c) eqn:L; [|discriminate]. apply nltb_ok in L. now rewrite nint_ok in L. }
    assert (L : 0 < ln (toR c)) by (rewrite <- ln_1; apply ln_increasing; lra).
    split; [split; simpl; auto|]. intros w y. rewrite val_log. split.
    - intros (x & H1 & H2 & ->). unfold Rpower. replace (ln x / ln (toR c) * ln (toR c)) with (ln x) by (field; lra). now rewrite exp_ln.
    - intros H. eexists. split; [exact H|]. split; [apply exp_pos|]. unfold Rpower. rewrite ln_exp. field. lra.
  Qed.

  (** C13 *)
  Theorem C13_and : forall a b e, gev a -> gev b -> ev_and io a b = Ok e ->
    gev e /\ forall w, holds e w <-> holds a w /\ holds b w.
  Proof. exact (ev_and_ok io). Qed.
  Theorem C13_or : forall a b e, gev a -> gev b -> ev_or io a b = Ok e ->
    gev e /\ forall w, holds e w <-> holds a w \/ holds b w.
  Proof. exact (ev_or_ok io). Qed.
  Theorem C13_not : forall e n, gev e -> ev_not io e = Ok n ->
    gev n /\ forall w, holds n w <-> fails e w.
  Proof. exact (ev_not_ok io). Qed.
  Theorem C13_not_defined : forall e n, gev e -> ev_not io e = Ok n ->
    forall w, teval e w <> None -> (holds n w <-> ~ holds e w).
  Proof.
    intros e n G H w D. apply ev_not_ok in H; auto. destruct H as (_ & H). rewrite H. split.
    - intros F K. exact (not_both e w K F).
    - intros K. destruct (defined_cases e w (proj2 G) D); tauto.
  Qed.
  Theorem C13_xor : forall a b e, gev a -> gev b -> ev_xor io a b = Ok e ->
    gev e /\ forall w, holds e w <-> (holds a w /\ fails b w) \/ (fails a w /\ holds b w).
  Proof. exact (ev_xor_ok io). Qed.
  (** falsity, where no empty set has lost its sort *)
  Theorem C13_and_false : forall a b e, gev a -> gev b -> ev_and io a b = Ok e -> nonvoid e ->
    forall w, fails e w <-> fails a w \/ fails b w.
  Proof. exact (ev_and_fails io). Qed.
  Theorem C13_or_false : forall a b e, gev a -> gev b -> nonvoid a -> nonvoid b -> same_sort a b -> ev_or io a b = Ok e ->
    forall w, fails e w <-> fails a w /\ fails b w.
  Proof. exact (ev_or_fails io). Qed.

  (** C14 *)
  Theorem C14_le : forall t x e, good t -> realv t -> t_le t x = Ok e ->
    gev e /\ forall w, holds e w <-> exists y, value t w y /\ below x false y.
  Proof. exact t_le_ok. Qed.
  Theorem C14_lt : forall t x e, good t -> realv t -> t_lt t x = Ok e ->
    gev e /\ forall w, holds e w <-> exists y, value t w y /\ below x true y.
  Proof. exact t_lt_ok. Qed.
  Theorem C14_ge : forall t x e, good t -> realv t -> t_ge t x = Ok e ->
    gev e /\ forall w, holds e w <-> exists y, value t w y /\ above x false y.
  Proof. exact t_ge_ok. Qed.
  Theorem C14_gt : forall t x e, good t -> realv t -> t_gt t x = Ok e ->
    gev e /\ forall w, holds e w <-> exists y, value t w y /\ above x true y.
  Proof. exact t_gt_ok. Qed.
  (** comparisons with a finite number always succeed *)
  Theorem C14_total : forall t c, exists e1 e2 e3 e4, t_le t (Fin c) = Ok e1 /\ t_lt t (Fin c) = Ok e2 /\ t_ge t (Fin c) = Ok e3 /\ t_gt t (Fin c) = Ok e4.
  Proof. intros t c. do 4 eexists. repeat split; reflexivity. Qed.
  (** chained comparison of an event (t <= ..) or (t >= ..) *)
  Theorem C14_chain_lower : forall t i x lo e', gev (EBasic KInt t (PB (BInt i))) ->
    compute_gte (EBasic KInt t (PB (BInt i))) x lo = Ok e' ->
    gev e' /\ forall w, holds e' w <-> holds (EBasic KInt t (PB (BInt i))) w /\ exists y, value t w y /\ above x lo y.
  Proof. intros t i x lo e' G H. now apply (compute_gte_ok _ t (PB (BInt i)) x lo e' G eq_refl). Qed.
  Theorem C14_chain_upper : forall t i x ro e', gev (EBasic KInt t (PB (BInt i))) ->
    compute_lte (EBasic KInt t (PB (BInt i))) x ro = Ok e' ->
    gev e' /\ forall w, holds e' w <-> holds (EBasic KInt t (PB (BInt i))) w /\ exists y, value t w y /\ below x ro y.
  Proof. intros t i x ro e' G H. now apply (compute_lte_ok _ t (PB (BInt i)) x ro e' G eq_refl). Qed.
  Theorem C14_in_set : forall t v e, good t -> realv t -> wf v -> t_in io t v = Ok e ->
    gev e /\ forall w, holds e w <-> exists y, teval t w = Some y /\ fm y v.
  Proof. exact (t_in_ok io). Qed.
  Theorem C14_in_list : forall t vs e, good t -> realv t -> t_in_list t vs = Ok e ->
    gev e /\ forall w, holds e w <-> exists y v, teval t w = Some y /\ In v vs /\ val_is v y.
  Proof. exact t_in_list_ok. Qed.

  (** C15 *)
  Theorem C15_to_dnf : forall e, gev e -> exists d, to_dnf e = Ok d /\ gev d /\ is_dnf d /\
    forall w, (holds d w <-> holds e w) /\ (fails d w <-> fails e w).
  Proof. exact to_dnf_ok. Qed.

  (** C19 *)
  Theorem C19_substitute_faithful : forall n env t t', substitute io po fuel n env t = Ok t' ->
    forall w, consistent env w -> teval t' w = teval t w.
  Proof. intros n env t t' H w C. now apply (substitute_teval io po fuel n env). Qed.
  Theorem C19_substitute_good : forall n env t t', env_good env -> good t -> substitute io po fuel n env t = Ok t' ->
    good t' /\ (realv t -> realv t') /\ (is_event t = true -> is_event t' = true).
  Proof. intros n env t t' Ge G H. now apply (substitute_good io po fuel env Ge n t). Qed.
  (** for an environment built by transform(), the loop stops and leaves the base variable only *)
  Theorem C19_substitute_base : forall X env t, env_built X env -> (forall s, In s (symbols t) -> In s (map fst env)) ->
    (forall k, substitute io po fuel (List.length env + k) env t = substitute io po fuel (List.length env) env t) /\
    (forall t', substitute io po fuel (List.length env) env t = Ok t' -> only X t').
  Proof. exact (substitute_built io po fuel). Qed.
  (** it can only fail on a Piecewise whose events overlap after substitution *)
  Theorem C19_substitute_total : forall X env t, env_built X env -> (forall s, In s (symbols t) -> In s (map fst env)) ->
    env_good env -> (forall x u, lookup x env = Some u -> nopiece u) -> good t -> nopiece t ->
    exists t', substitute io po fuel (List.length env) env t = Ok t'.
  Proof. exact (substitute_built_total io po fuel). Qed.

  (** C44 *)
  Theorem C44_inequality_exact : forall cs b strict s, solve_ineq_num io po cs b strict = Ok s ->
    wf s /\ real_set s /\
    forall x, fm (FNum x) s <-> (if strict then Rpoly cs x < toR b else Rpoly cs x <= toR b).
  Proof. intros cs b strict s H. apply solve_ineq_num_ok in H. destruct H as (A & B & _ & D). auto. Qed.
  Theorem C44_equality_exact : forall cs b s, solve_eq po cs b = Ok s ->
    wf s /\ real_set s /\ forall x, fm (FNum x) s <-> Rpoly cs x = toR b.
  Proof. intros cs b s H. apply solve_eq_ok in H. destruct H as (A & B & _ & D). auto. Qed.
  (** it returns when there is a real root and none is repeated *)
  Theorem C44_inequality_total : forall cs b strict roots, po_nroots po cs b = Some roots -> roots <> [] ->
    NoDup (map toR roots) -> exists s, solve_ineq_num io po cs b strict = Ok s.
  Proof. exact (solve_ineq_num_total io po). Qed.
  (** a double root makes the code fail *)
  Theorem C44_repeated_root_raises : forall cs b strict z, po_nroots po cs b = Some [z; z] ->
    solve_ineq_num io po cs b strict = Raise AssertionError.
  Proof. exact (solve_ineq_num_repeated io po). Qed.
  (** no real root: SymPy's EmptySet is returned, on which the next set operation fails *)
  Theorem C44_no_root_raises : forall cs b strict, po_nroots po cs b = Some [] ->
    solve_ineq_num io po cs b strict = Raise TypeError.
  Proof. intros cs b strict H. unfold solve_ineq_num, nroots. rewrite H. reflexivity. Qed.
End Props.

(** * Concrete cases, on rational numbers *)
Section Examples.
  Let po := po_small QS.
  Let X : tr QS := TId "X".
  Let Y : tr QS := TId "Y".
  Definition at_ (x : string) (v : fval) : asg := fun y => if String.eqb x y then v else FNum 0.

  Lemma wf_iv_ex : forall a b lo ro i, Interval_ (N:=QS) a b lo ro = Ok i -> wf (PB (BInt i)).
  Proof. intros a b lo ro i H. exact (Interval_wf _ _ _ _ _ H). Qed.
  Lemma good_int : forall (t : tr QS) a b lo ro, good t -> realv t -> eltb a b = true ->
    gev (EBasic KInt t (PB (BInt (mkIv (N:=QS) a b (lo || is_ninf a) (ro || is_pinf b))))).
  Proof.
    intros t a b lo ro G R E. split; [|reflexivity]. refine (conj G (conj R (conj _ _))); [|eauto].
    apply (wf_iv_ex a b lo ro). unfold Interval_. rewrite E. reflexivity.
  Qed.

  (** C10: (X**2) inverted on [1, 4) is (-2, -1] U [1, 2) *)
  Definition sq : tr QS := TPoly X [0; 0; 1]%Q.
  Definition i14 : pset QS := iv (qn 1) (qn 4) false true.
  Example C10_case : num_transform sq /\ only "X" sq /\ plain sq /\ wf i14 /\ inffree i14 /\
    exists r, invert ioQ po 5 sq i14 = Ok r /\
      contains ioQ (VNum (qn (-1))) r = Ok true /\ contains ioQ (VNum (qn 2)) r = Ok false /\ contains ioQ (VNum (qn (3#2))) r = Ok true.
  Proof.
    assert (W : wf i14) by (apply (wf_iv_ex (qn 1) (qn 4) false true); reflexivity).
    split; [split; simpl; auto|]. split; [intros x [<-|[]]; auto|]. split; [exact I|]. split; [exact W|].
    split; [now apply iv_inffree|]. eexists. split; [reflexivity|]. repeat split; reflexivity.
  Qed.
  (** a Piecewise is accepted: X**2 where X < 0, X elsewhere *)
  Definition neg : tr QS := EBasic KInt X (iv NInf (qn 0) true true).
  Definition nonneg : tr QS := EBasic KInt X (iv (qn 0) PInf false true).
  Lemma gev_neg : gev neg.
  Proof. apply (good_int X NInf (qn 0) true true); simpl; auto. Qed.
  Lemma gev_nonneg : gev nonneg.
  Proof. apply (good_int X (qn 0) PInf false true); simpl; auto. Qed.
  Definition pw : tr QS := TPiece [(sq, neg); (X, nonneg)].
  Example C10_piecewise_case : Piecewise ioQ po 5 [sq; X] [neg; nonneg] = Ok pw /\
    Forall (fun t => good t /\ realv t) [sq; X] /\ Forall gev [neg; nonneg] /\
    exists e r, Piecewise ioQ po 5 [sq; X] [neg; neg] = Raise e /\ invert ioQ po 5 pw i14 = Ok r /\
      contains ioQ (VNum (qn (-1))) r = Ok true /\ contains ioQ (VNum (qn 3)) r = Ok true.
  Proof.
    split; [reflexivity|]. split; [repeat constructor|]. split; [auto using gev_neg, gev_nonneg|].
    do 2 eexists. split; [reflexivity|]. split; [reflexivity|]. split; reflexivity.
  Qed.
  (** C11: 1 <= (2**X)**2 < 4 and X <= 5 *)
  Definition e11 : tr QS :=
    EAnd [EBasic KInt (TPoly (TExp X 2%Q) [0;0;1]%Q) i14; EBasic KInt X (iv NInf (qn 5) true false)].
  Lemma gev_e11 : gev e11.
  Proof.
    apply (EventAnd_ok [EBasic KInt (TPoly (TExp X 2%Q) [0;0;1]%Q) i14; EBasic KInt X (iv NInf (qn 5) true false)]); [|reflexivity].
    constructor; [|constructor; [|constructor]].
    - apply (good_int _ (qn 1) (qn 4) false true); try exact I; [|reflexivity]. simpl. repeat split; auto. unfold Q2R. simpl. lra.
    - apply (good_int X NInf (qn 5) true false); simpl; auto.
  Qed.
  Example C11_case : gev e11 /\ only "X" e11 /\ plain e11 /\ exists r, solve ioQ po 5 e11 = Ok r /\
    contains ioQ (VNum (qn 0)) r = Ok true /\ contains ioQ (VNum (qn 1)) r = Ok false /\ contains ioQ (VNum (qn (1#2))) r = Ok true.
  Proof.
    split; [apply gev_e11|]. split; [intros x [<-|[]]; auto|].
    split; [simpl; intuition discriminate|]. eexists. split; [reflexivity|]. repeat split; reflexivity.
  Qed.
  (** C12 *)
  Example C12_case : num_transform X /\
    (exists r, add_num X (3#1)%Q = Ok r) /\ (exists r, mul_num sq (3#1)%Q = Ok r) /\ (exists r, div_num sq (3#1)%Q = Ok r) /\
    (exists r, sub_num X (3#1)%Q = Ok r) /\ (exists r, t_neg sq = Ok r) /\ (exists r, rdiv_num (N:=QS) (3#1)%Q sq = Ok r) /\
    (exists r, t_add ioQ po 5 sq X = Ok r) /\ (exists r, t_sub ioQ po 5 sq X = Ok r) /\ (exists r, t_mul ioQ po 5 sq X = Ok r) /\
    (exists r, t_mul ioQ po 5 X neg = Ok r) /\ (exists r, t_add ioQ po 5 (TPiece [(sq, neg)]) (TPiece [(X, nonneg)]) = Ok r) /\
    (exists r, pow_int sq 3 = Ok r) /\ (exists r, pow_int sq (-3) = Ok r) /\ (exists r, pow_rat sq 1 3 = Ok r) /\
    (exists r, pow_rat sq (-1) 3 = Ok r) /\ (exists r, rpow_num (N:=QS) (3#1)%Q sq = Ok r) /\ (exists r, Logarithm sq (3#1)%Q = Ok r).
  Proof. split; [split; exact I|]. repeat split; eexists; reflexivity. Qed.
  Example C12_piecewise_case : good (TPiece [(sq, neg)]) /\ good (TPiece [(X, nonneg)]).
  Proof.
    split; simpl; repeat split; auto; try discriminate; try (apply gev_neg); try (apply gev_nonneg); intros x Hx; exact Hx.
  Qed.
  (** C13: events on two variables *)
  Definition ya : tr QS := EBasic KNom Y (fn ["a"]).
  Lemma gev_nom : forall t l b, good t -> realv t -> FiniteNominal (N:=QS) l b = Ok (PB (BNom l b)) -> gev (N:=QS) (EBasic KNom t (PB (BNom l b))).
  Proof. intros t l b G R H. split; [|reflexivity]. refine (conj G (conj R (conj (FiniteNominal_wf _ _ _ H) _))). right. exact I. Qed.
  Lemma gev_ya : gev ya.
  Proof. apply gev_nom; exact I || reflexivity. Qed.
  Example C13_case : gev neg /\ gev ya /\ nonvoid neg /\ nonvoid ya /\ same_sort neg nonneg /\
    (exists e, ev_and ioQ neg ya = Ok e /\ nonvoid e) /\ (exists e, ev_or ioQ neg nonneg = Ok e) /\
    (exists e, ev_not ioQ (EOr [neg; ya]) = Ok e) /\ (exists e, ev_xor ioQ neg ya = Ok e) /\
    teval ya (at_ "Y" (FStr "b")) <> None.
  Proof.
    split; [apply gev_neg|]. split; [apply gev_ya|]. do 2 (split; [exact I|]). split; [simpl; split; discriminate|].
    split; [eexists; split; [reflexivity|exact I]|]. do 3 (split; [eexists; reflexivity|]).
    simpl. unfold truth. destruct (dec _); discriminate.
  Qed.
  (** C14: (0 <= X) <= 1, membership in a union and in a list *)
  Example C14_case : good X /\ realv X /\
    (exists i e, t_ge X (qn 0) = Ok (EBasic KInt X (PB (BInt i))) /\ gev (EBasic KInt X (PB (BInt i))) /\
       compute_lte (EBasic KInt X (PB (BInt i))) (qn 1) false = Ok e) /\
    (exists i e, t_le X (qn 1) = Ok (EBasic KInt X (PB (BInt i))) /\ gev (EBasic KInt X (PB (BInt i))) /\
       compute_gte (EBasic KInt X (PB (BInt i))) (qn 0) true = Ok e) /\
    (exists v e, por ioQ i14 (fr [qn 7]) = Ok v /\ wf v /\ t_in ioQ X v = Ok e) /\
    (exists e, t_in_list X [VNum (qn 1); VStr "a"; VNum (qn 2)] = Ok e).
  Proof.
    split; [exact I|]. split; [exact I|]. split; [|split; [|split]].
    - exists (mkIv (qn 0) PInf false true). eexists. split; [reflexivity|].
      split; [apply (good_int X (qn 0) PInf false true); simpl; auto|reflexivity].
    - exists (mkIv NInf (qn 1) true false). eexists. split; [reflexivity|].
      split; [apply (good_int X NInf (qn 1) true false); simpl; auto|reflexivity].
    - do 2 eexists. split; [reflexivity|]. split; [|reflexivity].
      assert (W1 : wf i14) by (apply (wf_iv_ex (qn 1) (qn 4) false true); reflexivity).
      assert (W2 : wf (fr [qn 7])) by (apply (FiniteReal_wf [qn 7]); reflexivity).
      eapply (por_f ioQ i14 (fr [qn 7])); auto.
    - eexists. reflexivity.
  Qed.
  (** C15: (A | B) & (C | D) has four clauses *)
  Example C15_case : gev (EAnd [EOr [neg; ya]; EOr [nonneg; ya]]) /\
    exists a b c d, to_dnf (EAnd [EOr [neg; ya]; EOr [nonneg; ya]]) = Ok (EOr [a; b; c; d]).
  Proof.
    split; [|do 4 eexists; reflexivity].
    assert (gev (EOr [neg; ya])) by (apply (EventOr_ok [neg; ya]); [auto using gev_neg, gev_ya|reflexivity]).
    assert (gev (EOr [nonneg; ya])) by (apply (EventOr_ok [nonneg; ya]); [auto using gev_nonneg, gev_ya|reflexivity]).
    apply (EventAnd_ok [EOr [neg; ya]; EOr [nonneg; ya]]); [auto|reflexivity].
  Qed.
  (** C19: Y = X**2, Z = Y + 1 *)
  Definition env19 : tenv (N:=QS) := [("X", X); ("Y", sq); ("Z", TPoly Y [1; 1]%Q)].
  Definition e19 : tr QS := EBasic KInt (TId "Z") i14.
  Example C19_case : env_built "X" env19 /\ env_good env19 /\ (forall x u, lookup x env19 = Some u -> nopiece u) /\
    gev e19 /\ nopiece e19 /\ (forall s, In s (symbols e19) -> In s (map fst env19)) /\
    substitute ioQ po 5 3 env19 e19 = Ok (EBasic KInt (TPoly sq [1; 1]%Q) i14) /\
    consistent env19 (fun s => if String.eqb s "X" then FNum 2 else if String.eqb s "Y" then FNum 4 else FNum 5).
  Proof.
    assert (Lk : forall (P : string -> tr QS -> Prop), P "X" X -> P "Y" sq -> P "Z" (TPoly Y [1; 1]%Q) ->
      forall x u, lookup x env19 = Some u -> P x u).
    { intros P P1 P2 P3 x u H. simpl in H. destruct (String.eqb_spec x "X") as [->|]; [injection H as <-; auto|].
      destruct (String.eqb_spec x "Y") as [->|]; [injection H as <-; auto|].
      destruct (String.eqb_spec x "Z") as [->|]; [injection H as <-; auto|discriminate]. }
    split; [|split; [|split; [|split; [|split; [|split; [|split]]]]]].
    - apply (built_ext "X" [("X", X); ("Y", sq)] "Z").
      + apply (built_ext "X" [("X", X)] "Y"); [constructor| |].
        * intros [K|[]]. discriminate.
        * intros s [<-|[]]. now left.
      + intros [K|[K|[]]]; discriminate.
      + intros s [<-|[]]. right. now left.
    - refine (Lk (fun _ t => good t /\ realv t) _ _ _); simpl; auto.
    - refine (Lk (fun _ t => nopiece t) _ _ _); exact I.
    - apply (good_int (TId "Z") (qn 1) (qn 4) false true); simpl; auto.
    - exact I.
    - intros s [<-|[]]. simpl. auto.
    - reflexivity.
    - refine (Lk (fun x t => teval t _ = Some (_ x)) _ _ _); simpl; try reflexivity; do 2 f_equal; unfold Q2R; simpl; lra.
  Qed.
  (** C44: 2x - 1 < 3, and x**2 <= 4 *)
  Example C44_case : exists s t, solve_ineq_num ioQ po [-1; 2]%Q 3%Q true = Ok s /\ solve_ineq_num ioQ po [0; 0; 1]%Q 4%Q false = Ok t /\
    contains ioQ (VNum (qn (-2))) t = Ok true /\ contains ioQ (VNum (qn 2)) s = Ok false.
  Proof. do 2 eexists. split; [reflexivity|]. split; [reflexivity|]. split; reflexivity. Qed.

  (** * Where the code does not satisfy the property *)

  (** base below 1: 0.5**X > 2 is solved as X > -1 *)
  Theorem C10_small_base_refuted : exists t s r, invert ioQ po 5 t s = Ok r /\ fm (FNum 0) r /\ ~ fm (FNum (-2)) r /\
    (forall w y, w "X" = FNum y -> (exists z, value t w z /\ fm (FNum z) s) -> y < -1).
  Proof.
    exists (TExp X (1#2)%Q), (iv (qn 2) PInf true true), (iv (qn (-1)) PInf true true).
    split; [reflexivity|]. split; [apply iv_fm; simpl; unfold Q2R; simpl; split; [lra|auto]|].
    split; [intros K; apply iv_fm in K; simpl in K; unfold Q2R in K; simpl in K; lra|].
    intros w y Ey (z & H1 & H2). apply val_exp in H1. destruct H1 as (x & H1 & ->). unfold value in H1. simpl in H1. rewrite Ey in H1.
    injection H1 as <-. apply iv_fm in H2. destruct H2 as (H2 & _). simpl in H2.
    destruct (Rlt_dec y (-1)) as [K|K]; auto. exfalso.
    assert (E : @toR QS (1#2)%Q = / 2) by (simpl; unfold Q2R; simpl; lra).
    cbn in E, H2; rewrite E in H2.
    assert (Rpower (/ 2) y <= 2); [|simpl in H2; unfold Q2R in H2; simpl in H2; lra].
    unfold Rpower. rewrite ln_Rinv by lra. replace 2 with (exp (ln 2)) at 2 by (apply exp_ln; lra).
    assert (L : 0 < ln 2) by (rewrite <- ln_1; apply ln_increasing; lra).
    destruct (Rle_lt_or_eq_dec (y * - ln 2) (ln 2)) as [Q|Q].
    - assert (0 <= (y + 1) * ln 2) by (apply Rmult_le_pos; lra). lra.
    - left. now apply exp_increasing.
    - right. now rewrite Q.
  Qed.
  (** a bounded interval then asserts *)
  Theorem C10_small_base_raises_refuted : exists t s, wf s /\ (exists w y, value t w y /\ fm (FNum y) s) /\
    invert ioQ po 5 t s = Raise AssertionError.
  Proof.
    exists (TExp X (1#2)%Q), (iv (qn 2) (qn 4) false false).
    split; [apply (wf_iv_ex (qn 2) (qn 4) false false); reflexivity|]. split; [|reflexivity].
    exists (at_ "X" (FNum (-1))), 2. split.
    - apply val_exp. exists (-1). split; [reflexivity|]. simpl. replace (Q2R (1#2)) with (/ 2) by (unfold Q2R; simpl; lra).
      replace (-1) with (Ropp 1) by lra; rewrite Rpower_Ropp, Rpower_1 by lra. lra.
    - apply iv_fm. simpl. unfold Q2R. simpl. lra.
  Qed.
  (** a singular point: 2**log2(X) = 0 is given the solution X = 0, where log is undefined *)
  Theorem C10_singular_refuted : exists t s r, num_transform t /\ wf s /\ inffree s /\ invert ioQ po 5 t s = Ok r /\
    exists w, fm (w "X") r /\ forall y, ~ value t w y.
  Proof.
    exists (TExp (TLog X 2%Q) 2%Q), (fr [qn 0]), (fr [qn 0]).
    split; [split; simpl; unfold Q2R; simpl; repeat split; auto; lra|].
    split; [apply (FiniteReal_wf [qn 0]); reflexivity|].
    split; [intros x (y & [<-|[]] & <-); simpl; eauto|].
    split; [reflexivity|]. exists (at_ "X" (FNum 0)). split.
    - exists (qn 0). split; [now left|]. simpl. f_equal. unfold Q2R. simpl. lra.
    - intros y H. apply val_exp in H. destruct H as (x & H & _). apply val_log in H. destruct H as (z & H & K & _).
      injection H as <-. lra.
  Qed.
  (** a compound event inverted at 0 gives the union of the complements *)
  Theorem C10_compound_zero_refuted : exists t s r, gev t /\ wf s /\ invert ioQ po 5 t s = Ok r /\
    exists w, fm (w "X") r /\ holds t w /\ ~ fm (FNum 1) s.
  Proof.
    exists (EOr [neg; EBasic KInt X (iv (qn 1) PInf true true)]), (fr [qn 0]). eexists.
    split; [apply (EventOr_ok [neg; EBasic KInt X (iv (qn 1) PInf true true)]); [|reflexivity]|].
    { constructor; [apply gev_neg|]. constructor; [|constructor]. apply (good_int X (qn 1) PInf true true); simpl; auto. }
    split; [apply (FiniteReal_wf [qn 0]); reflexivity|]. split; [reflexivity|].
    exists (at_ "X" (FNum (-1))). split; [|split].
    - assert (W1 : wf (iv NInf (qn 1) true false)) by (apply (wf_iv_ex NInf (qn 1) true false); reflexivity).
      assert (W2 : wf (iv (qn 0) PInf false true)) by (apply (wf_iv_ex (qn 0) PInf false true); reflexivity).
      eapply (por_f ioQ (iv (qn 0) PInf false true) (iv NInf (qn 1) true false)); [auto|auto|reflexivity|].
      right. apply iv_fm. simpl. unfold Q2R. simpl. split; [auto|lra].
    - apply holds_or. exists neg. split; [now left|]. apply holds_gev; [apply gev_neg|]. eexists. split; [reflexivity|].
      apply iv_fm. simpl. unfold Q2R. simpl. split; [auto|lra].
    - intros (y & [<-|[]] & K). simpl in K. injection K. unfold Q2R. simpl. lra.
  Qed.
  (** ~(X**2 << {'a'}) is solved by every string, though X**2 of a string is undefined *)
  Theorem C11_nominal_transform_refuted : exists e r, gev e /\ only "X" e /\ solve ioQ po 5 e = Ok r /\
    exists w, fm (w "X") r /\ ~ holds e w.
  Proof.
    exists (EBasic KNom sq (PB (BNom ["a"] (Some true)))), Strings.
    split; [apply gev_nom; simpl; auto|].
    split; [intros x [<-|[]]; auto|]. split; [reflexivity|].
    exists (at_ "X" (FStr "b")). split; [simpl; tauto|]. unfold holds. simpl. discriminate.
  Qed.
  (** 5 - X is X - 5 *)
  Theorem C12_rsub_refuted : exists c t r w x y, num_transform t /\ rsub_num (N:=QS) c t = Ok r /\
    value t w x /\ value r w y /\ y <> toR c - x.
  Proof.
    exists 5%Q, X. eexists. exists (at_ "X" (FNum 1)), 1, (-4). split; [split; exact I|]. split; [reflexivity|].
    split; [reflexivity|]. split.
    - apply val_poly. exists 1. split; [reflexivity|]. simpl. unfold Q2R. simpl. lra.
    - simpl. unfold Q2R. simpl. lra.
  Qed.
  (** in general it is the opposite of the difference *)
  Theorem C12_rsub_value : forall c t r, num_transform t -> rsub_num (N:=QS) c t = Ok r ->
    forall w y, value r w y <-> exists x, value t w x /\ y = x - toR c.
  Proof. intros c t r (G & Rt) H. apply sub_num_ok in H; auto. apply H. Qed.
  (** X ** (1, 1) is undefined at negative X *)
  Theorem C12_pow_one_refuted : exists t r w, num_transform t /\ pow_rat (N:=QS) t 1 1 = Ok r /\ value t w (-1) /\ ~ value r w (-1).
  Proof.
    exists X. eexists. exists (at_ "X" (FNum (-1))). split; [split; exact I|]. split; [reflexivity|]. split; [reflexivity|].
    intros K. apply val_radical in K. destruct K as (x & _ & K). apply f_root_spec in K. lra.
  Qed.
  (** the negation of (X << {'a'}) & (X << {'b'}) is false of the string 'c' *)
  Theorem C13_not_and_refuted : exists a b e n w, gev a /\ gev b /\ ev_and ioQ a b = Ok e /\ ev_not ioQ e = Ok n /\
    fails a w /\ fails b w /\ ~ holds n w.
  Proof.
    exists (EBasic KNom X (fn ["a"])), (EBasic KNom X (fn ["b"])). do 2 eexists. exists (at_ "X" (FStr "c")).
    assert (G : forall s, gev (EBasic KNom X (fn [s]))).
    { intros s. apply gev_nom; exact I || reflexivity. }
    split; [apply G|]. split; [apply G|]. split; [reflexivity|]. split; [reflexivity|].
    split; [|split].
    - apply fails_basic. exists (FStr "c"). split; [reflexivity|]. split; [exact I|]. intros [K|[]]. discriminate.
    - apply fails_basic. exists (FStr "c"). split; [reflexivity|]. split; [exact I|]. intros [K|[]]. discriminate.
    - unfold holds. simpl. discriminate.
  Qed.
  (** the negation of a nominal event on the empty set asserts *)
  Theorem C13_not_empty_nominal_refuted : exists e, gev e /\ ev_not ioQ e = Raise AssertionError.
  Proof. exists (EBasic KNom X PEmpty). split; [|reflexivity]. repeat split; simpl; auto. Qed.
  (** X <= -oo asserts *)
  Theorem C14_bound_refuted : exists t, good t /\ realv t /\ t_le (N:=QS) t NInf = Raise AssertionError.
  Proof. exists X. repeat split. Qed.
  (** x**2 <= 0 and x**2 > -1 cannot be solved numerically *)
  Theorem C44_total_refuted : exists cs a b, solve_ineq_num ioQ po cs a false = Raise AssertionError /\
    solve_ineq_num ioQ po cs b true = Raise TypeError.
  Proof. exists [0; 0; 1]%Q, 0%Q, (-1)%Q. split; reflexivity. Qed.
  (** substitution does not end on a cyclic environment *)
  Theorem C19_cyclic_refuted : exists env e, forall n, substitute ioQ po 5 n env e = Raise OutOfFuel.
  Proof.
    exists [("X", TPoly X [1; 1]%Q)], X.
    assert (E : forall n t, (exists k, t = Nat.iter k (fun u : tr QS => TPoly u [1; 1]%Q) X) ->
      substitute ioQ po 5 n [("X", TPoly X [1; 1]%Q)] t = Raise OutOfFuel).
    2: { intros n. apply E. exists O. reflexivity. }
    induction n; intros t (k & ->).
    - cbn [substitute]. assert (M : expr_in_env (Nat.iter k (fun u : tr QS => TPoly u [1; 1]%Q) X) [("X", TPoly X [1; 1]%Q)] = true); [|now rewrite M].
      clear. unfold expr_in_env. assert (S : symbols (Nat.iter k (fun u : tr QS => TPoly u [1; 1]%Q) X) = ["X"]).
      { induction k; [reflexivity|]. simpl. exact IHk. } now rewrite S.
    - cbn [substitute].
      assert (S : forall k, symbols (Nat.iter k (fun u : tr QS => TPoly u [1; 1]%Q) X) = ["X"]).
      { clear. induction k; [reflexivity|]. simpl. exact IHk. }
      assert (M : forall k, expr_in_env (Nat.iter k (fun u : tr QS => TPoly u [1; 1]%Q) X) [("X", TPoly X [1; 1]%Q)] = true).
      { intros j. unfold expr_in_env. now rewrite S. }
      rewrite M.
      assert (B : subs ioQ po 5 [("X", TPoly X [1; 1]%Q)] (Nat.iter k (fun u : tr QS => TPoly u [1; 1]%Q) X) = Ok (Nat.iter (Datatypes.S k) (fun u : tr QS => TPoly u [1; 1]%Q) X)).
      { clear IHn. induction k; [reflexivity|]. change (Nat.iter (Datatypes.S k) (fun u : tr QS => TPoly u [1; 1]%Q) X) with
          (TPoly (Nat.iter k (fun u : tr QS => TPoly u [1; 1]%Q) X) [1; 1]%Q) at 1. cbn [subs].
        change (TPoly (Nat.iter k (fun u : tr QS => TPoly u [1; 1]%Q) X) [1; 1]%Q) with (Nat.iter (Datatypes.S k) (fun u : tr QS => TPoly u [1; 1]%Q) X).
        rewrite M. cbn [negb]. rewrite IHk. reflexivity. }
      rewrite B. cbn [bind]. apply IHn. exists (Datatypes.S k). reflexivity.
  Qed.
End Examples.

(** The axioms used by any theorem of this file *)
Definition all_transform_properties :=
  (@C10_invert_exact,
   @C10_invert_exact_infinite,
   @C10_invert_exact_plain,
   @C10_piecewise_disjoint,
   @C11_solve_exact,
   @C11_solve_exact_plain,
   @C12_add_number,
   @C12_sub_number,
   @C12_mul_number,
   @C12_div_number,
   @C12_div_by_transform,
   @C12_neg,
   @C12_abs,
   @C12_add,
   @C12_add_piecewise,
   @C12_sub,
   @C12_mul,
   @C12_mul_event,
   @C12_pow_positive,
   @C12_pow_negative,
   @C12_root,
   @C12_root_reciprocal,
   @C12_exponential,
   @C12_logarithm,
   @C13_and,
   @C13_or,
   @C13_not,
   @C13_not_defined,
   @C13_xor,
   @C13_and_false,
   @C13_or_false,
   @C14_le,
   @C14_lt,
   @C14_ge,
   @C14_gt,
   @C14_total,
   @C14_chain_lower,
   @C14_chain_upper,
   @C14_in_set,
   @C14_in_list,
   @C15_to_dnf,
   @C19_substitute_faithful,
   @C19_substitute_good,
   @C19_substitute_base,
   @C19_substitute_total,
   @C44_inequality_exact,
   @C44_equality_exact,
   @C44_inequality_total,
   @C44_repeated_root_raises,
   @C44_no_root_raises,
   @C10_small_base_refuted,
   @C10_small_base_raises_refuted,
   @C10_singular_refuted,
   @C10_compound_zero_refuted,
   @C11_nominal_transform_refuted,
   @C12_rsub_refuted,
   @C12_rsub_value,
   @C12_pow_one_refuted,
   @C13_not_and_refuted,
   @C13_not_empty_nominal_refuted,
   @C14_bound_refuted,
   @C44_total_refuted,
   @C19_cyclic_refuted).
Print Assumptions all_transform_properties.
