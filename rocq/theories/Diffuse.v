(** Mixtures of continuous leaves: the clauses that have positive probability have no isolated
    numbers. *)
From Coq Require Import List Bool String Reals Lra Lia ZArith Classical Permutation.
From Verif Require Import Base Num Sets SetSpec SetIv SetProofs SetOr SetOps SetAlg SetBuilt
  Poly Trans TransSpec TransFacts PolyProofs InvProofs InvMain EvProofs ArithProofs
  Dnf DnfSpec DnfProofs DnfUnion PropDnf LeafProofs LeafEvents Logs Spe SpeSpec SpeFacts SpeRect SpeCons ConstrainProofs TotalSpec TotalEnds TotalSets TotalSolve TightUnion.
Import ListNotations.
Local Open Scope R_scope.

Definition finite_in (P : R -> Prop) : Prop := exists l, forall q, P q -> In q l.
Definition blob (P : R -> Prop) : Prop := (forall a b c, P a -> P c -> a <= b <= c -> P b) \/ finite_in P.
Lemma blob_and : forall P Q, blob P -> blob Q -> blob (fun q => P q /\ Q q).
Proof.
  intros P Q [A|(l & A)] [B|(m & B)].
  - left. intros a b c (H1 & H2) (H3 & H4) H. split; [apply (A a b c)|apply (B a b c)]; auto.
  - right. exists m. intros q (_ & H). auto.
  - right. exists l. intros q (H & _). auto.
  - right. exists l. intros q (H & _). auto.
Qed.
Lemma blob_iff : forall P Q : R -> Prop, (forall q, P q <-> Q q) -> blob P -> blob Q.
Proof.
  intros P Q H [A|(l & A)]; [left|right].
  - intros a b c Ha Hc K. apply H. apply (A a b c); auto; now apply H.
  - exists l. intros q Hq. apply A. now apply H.
Qed.
Lemma blob_all : forall A (P : A -> R -> Prop) l, (forall a, In a l -> blob (P a)) -> blob (fun q => forall a, In a l -> P a q).
Proof.
  intros A P l. induction l as [|a l IH]; intros H.
  - left. intros a b c _ _ _ x [].
  - apply (blob_iff (fun q => P a q /\ forall b, In b l -> P b q)).
    + intros q. split; [intros (K1 & K2) b [<-|Hb]; auto|]. intros K. split; [apply K; now left|]. intros b Hb. apply K. now right.
    + apply blob_and; [apply H; now left|]. apply IH. intros b Hb. apply H. now right.
Qed.
(** a set of numbers without gaps that has two members has no isolated members *)
Lemma blob_thick : forall P r, blob P -> ~ finite_in P -> P r -> ~ alone r P.
Proof.
  intros P r [C|F] T Pr (e & He & K); [|tauto].
  assert (exists q, P q /\ q <> r) as (q & Pq & Nq).
  { apply NNPP. intros H. apply T. exists [r]. intros q Hq. left. apply NNPP. intros G. apply H. exists q. split; auto. }
  destruct (Rtotal_order q r) as [L|[E|L]]; [| |].
  - set (m := Rmax q (r - e / 2)). assert (r - e < m) by (pose proof (Rmax_r q (r - e / 2)); unfold m; lra). assert (q <= m) by apply Rmax_l. assert (m < r) by (unfold m; apply Rmax_lub_lt; lra).
    apply (K m); [rewrite Rabs_left; lra|lra|]. apply (C q m r); auto. lra.
  - auto.
  - set (m := Rmin q (r + e / 2)). assert (m < r + e) by (pose proof (Rmin_r q (r + e / 2)); unfold m; lra). assert (m <= q) by apply Rmin_l. assert (r < m) by (unfold m; apply Rmin_glb_lt; lra).
    apply (K m); [rewrite Rabs_right; lra|lra|]. apply (C r m q); auto. lra.
Qed.

Section Literals.
  Context {N : numsys} (nominal : string -> bool) (cuts points : string -> R -> Prop).
  Notation tr := (tr N).
  Notation cmp := (cmp (N:=N) nominal cuts points).
  Notation cmps := (cmps (N:=N) nominal cuts points).
  Lemma set_blob : forall b : bset N, real_b b -> blob (fun q => bmem (RNum (Fin q)) b).
  Proof.
    intros [vs f|vs|i] H; try destruct H.
    - right. exists (flat_map (fun y => match eR y with Fin q => [q] | _ => [] end) vs). intros q (y & Hy & E). apply in_flat_map. exists y. split; auto. rewrite E. now left.
    - left. intros a b c (A1 & _) (_ & C2) Hb. cbn [bmem]. assert (Eb : forall p q, p <= q -> ele (Fin p) (Fin q)) by (intros p q [K|K]; [now left|right; now rewrite K]). pose proof (Eb a b (proj1 Hb)). pose proof (Eb b c (proj2 Hb)). split.
      + destruct (iv_lo i); [|eapply ele_trans; eauto]. unfold elt in *. destruct (eR (iv_a i)); try tauto. lra.
      + destruct (iv_ro i); [|eapply ele_trans; eauto]. unfold elt in *. destruct (eR (iv_b i)); try tauto. lra.
  Qed.
  Lemma lit_number : forall x k v w r, nominal x = false -> cmp x (EBasic k (TId x) v) -> (holds (EBasic k (TId x) v) (upd w x (FNum r)) <-> mem (RNum (Fin r)) v).
  Proof.
    intros x k v w r En (_ & k' & v' & [= <- <-] & F). unfold fits in F. rewrite En in F. destruct F as (Nk & _). rewrite holds_basic. cbn [teval]. unfold upd at 1. rewrite String.eqb_refl. split.
    - intros (y & [= <-] & _ & H). exact H.
    - intros H. exists (FNum r). split; auto. split; auto. destruct k; cbn; tauto.
  Qed.
  Lemma lit_blob : forall x a w, nominal x = false -> cmp x a -> blob (fun r => holds a (upd w x (FNum r))).
  Proof.
    intros x a w En Ca. pose proof Ca as (G & k & v & -> & F). apply (blob_iff (fun r => mem (RNum (Fin r)) v)); [intros q; symmetry; now apply lit_number|].
    unfold fits in F. rewrite En in F. destruct F as (_ & Rv & _). destruct v as [|b|u]; [right; exists []; intros q []|now apply set_blob|now apply gev_not_union in G].
  Qed.
  Lemma lit_string : forall x a w u, nominal x = false -> cmp x a -> ~ holds a (upd w x (FStr u)).
  Proof.
    intros x a w u En (_ & k & v & -> & F). unfold fits in F. rewrite En in F. destruct F as (Nk & _). rewrite holds_basic. cbn [teval]. unfold upd at 1. rewrite String.eqb_refl. intros (y & [= <-] & T & _). destruct k; cbn in T; tauto.
  Qed.
  Lemma clause_lits : forall (c : tr) w, is_clause c -> (holds c w <-> forall a, In a (lits c) -> holds a w) /\ lits c <> [].
  Proof.
    intros c w [B|(l & -> & Nl & Fl)].
    - destruct c; try discriminate B. cbn [lits]. split; [|discriminate]. split; [intros H a [<-|[]]; exact H|]. intros H. apply H. now left.
    - rewrite holds_and. assert (E : lits (EAnd l) = l).
      { cbn [lits]. clear Nl. induction Fl as [|a l B F IH]; auto. cbn [map List.concat]. rewrite IH. destruct a; try discriminate B. reflexivity. }
      rewrite E. tauto.
  Qed.
  Lemma clause_blob : forall x (c : tr) w, nominal x = false -> cmps c -> is_clause c -> (forall y, In y (symbols c) -> y = x) ->
    blob (fun r => holds c (upd w x (FNum r))) /\ forall u, ~ holds c (upd w x (FStr u)).
  Proof.
    intros x c w En (G & F) Ic V. rewrite Forall_forall in F.
    assert (Cx : forall a, In a (lits c) -> cmp x a).
    { intros a Ha. destruct (F a Ha) as (y & Cy). replace x with y; auto. apply V. apply symbols_lits. exists a. split; auto. rewrite (cmp_symbols nominal cuts points y a Cy). now left. }
    split.
    - apply (blob_iff (fun r => forall a, In a (lits c) -> holds a (upd w x (FNum r)))); [intros q; symmetry; now apply clause_lits|]. apply blob_all. intros a Ha. apply lit_blob; auto.
    - intros u H. destruct (clause_lits c (upd w x (FStr u)) Ic) as (K & Nl). destruct (lits c) as [|a l] eqn:El; [tauto|]. apply K with (a := a) in H; [|now left]. revert H. apply lit_string; auto. apply Cx. now left.
  Qed.
End Literals.

Section Mixtures.
  Context {N : numsys} {S : logsys} {D : distsys N S} (dlaw : dist D -> (fval -> R) -> R).
  Context (nominal : string -> bool) (cuts : string -> R -> Prop).
  Notation spe := (spe D).
  Notation den := (den dlaw).
  Notation wf_spe := (wf_spe dlaw).
  Notation open_leaves := (open_leaves (D:=D) nominal cuts).
  Lemma diffuse_one : forall s many, wf_spe s -> open_leaves many s -> diffuse s -> exists x, nominal x = false /\ forall y, own s y -> y = x.
  Proof.
    induction s as [disc x d supp cond env|x a env|x ws|l H|l H] using spe_ind'; intros many W O Df; try contradiction.
    - destruct O as (En & _). exists x. split; auto.
    - destruct l as [|c l]; [now apply (sum_nonempty dlaw) in W|]. destruct (H c (or_introl eq_refl) many) as (x & En & Vx).
      + apply (sum_wf dlaw _ W). now left.
      + exact (SpeFacts.All_In _ _ _ _ O (or_introl eq_refl)).
      + exact (SpeFacts.All_In _ _ _ _ Df (or_introl eq_refl)).
      + exists x. split; auto. intros y Oy. apply Vx. exact (SpeFacts.All_In _ _ _ c Oy (or_introl eq_refl)).
  Qed.
  (** finitely many values have probability zero *)
  Lemma diffuse_null : forall s many x (F : asg -> Prop) w, wf_spe s -> open_leaves many s -> diffuse s -> own s x -> (exists l, forall a, F a -> exists q, In q l /\ a x = FNum q) -> den s (ind F) w = 0.
  Proof.
    induction s as [disc x d supp cond env|x a env|x ws|l H|l H] using spe_ind'; intros many y F w W O Df V Hl; try contradiction.
    - cbn [own] in V. subst y. cbn [SpeSpec.den]. destruct W as (W1 & W2 & W3 & W4 & (We & _) & _). destruct Hl as (l & Hl).
      change (real_law dlaw d supp cond (ind (fun v => F (place x env w v))) = 0).
      apply (I_null dlaw disc d supp cond W3 W4). pose proof (d_law _ _ _ W3) as LB. apply (law_null_sub LB (fun v => exists q, In q l /\ v = FNum q)); [|intros v Hv; destruct (Hl _ Hv) as (q & Hq & E); rewrite (place_base x env w v We) in E; eauto]. clear Hl.
      induction l as [|q l IH].
      + rewrite (law_ext (I:=dlaw d) _ (fun _ => 0)); [apply (law_const LB)|]. intros v. apply ind_false. intros (q & [] & _).
      + apply (law_null_sub LB (fun v => FNum q = v \/ exists q, In q l /\ v = FNum q)).
        * apply (law_null_or LB); [exact (d_cont _ _ _ W3 Df q)|exact IH].
        * intros v (q' & [->|Hq] & E); [left; auto|right; eauto].
    - cbn [SpeSpec.den]. apply sumR_zero. intros c Hc. rewrite (H c Hc many y F w); auto; [ring| | | |].
      + apply (sum_wf dlaw _ W). auto.
      + exact (SpeFacts.All_In _ _ _ _ O Hc).
      + exact (SpeFacts.All_In _ _ _ _ Df Hc).
      + exact (SpeFacts.All_In _ _ _ c V Hc).
  Qed.
  Lemma diffuse_clause : forall points s many x (c : tr N) w r, wf_spe s -> open_leaves many s -> diffuse s -> own s x -> cmps nominal cuts points c -> is_clause c -> (forall y, In y (symbols c) -> own s y) ->
    (forall w, 0 < den s (ind (holds c)) w) -> holds c (upd w x (FNum r)) -> ~ alone r (fun q => holds c (upd w x (FNum q))).
  Proof.
    intros points s many x c w r W O Df V Cc Ic Vc Pos Hr. destruct (diffuse_one s many W O Df) as (x' & En & Vx). assert (x = x') as <- by (now apply Vx).
    destruct (clause_blob nominal cuts points x c w En Cc Ic) as (B & Ns); [intros y Hy; apply Vx; auto|]. apply blob_thick; auto. intros (l & Hl). specialize (Pos w).
    rewrite (diffuse_null s many x (holds c) w) in Pos; auto; [lra|]. exists l. intros a H.
    assert (K : holds c (upd w x (a x))).
    { unfold holds in *. rewrite (teval_agree c (upd w x (a x)) a); [exact H|apply (proj1 Cc)|]. intros y Hy. rewrite (Vx y (Vc y Hy)). unfold upd. now rewrite String.eqb_refl. }
    destruct (a x) as [q|u]; [exists q; split; auto|destruct (Ns u K)].
  Qed.
End Mixtures.
