(** The visitor: its state, and the number of items it writes. *)
From Coq Require Import List Bool String Reals Lra Lia ZArith FunctionalExtensionality Classical.
From Verif Require Import Base Num Sets SetSpec Poly Trans TransSpec Dnf DnfSpec Logs Spe SpeSpec SpeOps Prog ProgSpec Source SourceSpec.
Import ListNotations.

Section Visit.
  Context {N : numsys}.
  Notation expr := (expr N).
  Notation stmt := (stmt N).
  Notation item := (item N).
  Notation vstate := (vstate N).
  Context (isdist : string -> bool) (unparse : expr -> expr -> string).
  Notation visit := (visit isdist unparse).
  Notation grow := (grow (N:=N) isdist).
  Notation random := (random (N:=N) isdist).
  Notation visit_Assign := (visit_Assign isdist unparse).

  Definition plain (i : item) : Prop := match i with IExpr _ => False | _ => True end.
  (** what is true of one step of the visitor *)
  Definition step (st st' : vstate) (k' : scope) (is : list item) (w : Prop) : Prop :=
    vs_first st' = false /\ vs_context st' = vs_context st /\ known st' = k' /\ (List.length is <= 1)%nat /\ Forall plain is /\
    (global_only st = false -> w -> List.length is = 1%nat).

  Lemma inb_app : forall x l m, inb String.eqb x (l ++ m) = inb String.eqb x l || inb String.eqb x m.
  Proof. intros x l m. unfold inb. apply existsb_app. Qed.
  Lemma known_with : forall st x o, known (vs_with_variable x o st) = fun y => String.eqb y x || known (N:=N) st y.
  Proof.
    intros st x o. extensionality y. unfold known, vs_with_variable. cbn [vs_variables]. rewrite map_app, inb_app. cbn. rewrite orb_false_r. apply orb_comm.
  Qed.
  Lemma known_again : forall st x, known st x = true -> known (N:=N) st = fun y => String.eqb y x || known st y.
  Proof. intros st x H. extensionality y. destruct (String.eqb_spec y x) as [->|]; auto. Qed.
  Lemma existsb_or : forall A (p q : A -> bool) l, existsb (fun x => p x || q x) l = existsb p l || existsb q l.
  Proof. induction l as [|x l IH]; cbn; auto. rewrite IH. destruct (p x), (q x), (existsb p l); auto. Qed.
  Lemma filter_nil : forall A (p : A -> bool) l, is_nil (filter p l) = negb (existsb p l).
  Proof. induction l as [|x l IH]; cbn; auto. destruct (p x); auto. Qed.

  Definition is_if (v : expr) : bool := match v with XIf _ _ _ => true | _ => false end.
  Lemma random_plain : forall k v, is_if v = false -> random k v = is_array v || (existsb isdist (names v) || existsb k (names v)).
  Proof. intros k v H. rewrite <- existsb_or. destruct v; try discriminate; reflexivity. Qed.
  Lemma array_is : forall v, array_args v = None -> is_array (N:=N) v = false.
  Proof. intros v H. destruct v; auto. simpl in *. now destruct (String.eqb f "array"). Qed.
  Lemma array_some : forall v args, array_args v = Some args -> is_array (N:=N) v = true.
  Proof. intros v args H. destruct v; try discriminate. simpl in *. now destruct (String.eqb f "array"). Qed.

  (** an assignment that writes, one that declares an array, and one of a constant *)
  Lemma sample_step : forall t v b st st' is k, visit_Assign_sample_or_transform t v b st = Ok (st', is) -> known st = k -> random k v = true ->
    vs_first st = false -> step st st' (grow k (SAssign [t] v)) is True /\ is = [if b then ISample t (rewrite v) else ITransform t (rewrite v)].
  Proof.
    intros t v b st st' is k H <- R F. unfold visit_Assign_sample_or_transform in H. inv_bind H. injection H as <- <-. split; [|reflexivity].
    cbn [SourceSpec.grow]. destruct t as [x| | | | | | | | | |[x| | | | | | | | | | | |] i| |]; try discriminate E.
    - inv_bind E. rewrite R. destruct (in_context CElif st).
      + inv_bind E. injection E as <-. apply passert_Ok in E1. unfold step. rewrite <- (known_again st x E1). repeat split; auto. constructor; auto. destruct b; exact I.
      + inv_bind E. injection E as <-. unfold step. rewrite known_with. repeat split; auto. constructor; auto. destruct b; exact I.
    - inv_bind E. injection E as <-. unfold step. repeat split; auto. constructor; auto. destruct b; exact I.
  Qed.
  Lemma assign_step : forall t v st st' is, is_if v = false -> visit_Assign [t] v st = Ok (st', is) -> vs_first st = false ->
    step st st' (grow (known st) (SAssign [t] v)) is True /\
    (is = [] /\ (is_array v = true \/ existsb isdist (names v) = false /\ existsb (known st) (names v) = false) \/
     is_array v = false /\ is = [ISample t (rewrite v)] /\ existsb isdist (names v) = true \/
     is_array v = false /\ is = [ITransform t (rewrite v)] /\ existsb isdist (names v) = false /\ existsb (known st) (names v) = true).
  Proof.
    intros t v st st' is I H F. unfold visit_Assign in H.
    set (st0 := vs_with_distributions _ st) in H. assert (K0 : known st0 = known st) by reflexivity. assert (F0 : vs_first st0 = false) by exact F. assert (G0 : global_only st0 = global_only st) by reflexivity.
    assert (S0 : forall k' is w, step st0 st' k' is w -> step st st' k' is w) by (intros k' is0 w Hs; exact Hs).
    clearbody st0. destruct (array_args v) as [args|] eqn:Ea.
    - apply array_some in Ea. unfold visit_Assign_array in H. inv_bind H. apply passert_Ok in E. destruct t; try discriminate. destruct args as [|n [|]]; try discriminate. inv_bind H. injection H as <- <-.
      split; [|left; auto]. cbn [SourceSpec.grow]. rewrite random_plain, Ea by auto. cbn [orb]. apply S0. unfold step. rewrite known_with, K0. repeat split; auto. intros G. congruence.
    - apply array_is in Ea. rewrite filter_nil in H. destruct (existsb isdist (names v)) eqn:Ed; cbn [negb] in H.
      + assert (H' : visit_Assign_sample_or_transform t v true st0 = Ok (st', is)).
        { destruct v as [| | | |op ? ?| | | | | | |f ? ?|]; try discriminate H; [now destruct op|now destruct (isdist f)]. }
        destruct (sample_step _ _ _ _ _ _ (known st) H' K0) as (St & ->); auto; [rewrite random_plain, Ed, orb_true_r by auto; reflexivity|]. split; auto.
      + destruct (existsb (known st0) (names v)) eqn:Ek; rewrite K0 in Ek.
        * destruct (sample_step _ _ _ _ _ _ (known st) H K0) as (St & ->); auto; [rewrite random_plain, Ek, !orb_true_r by auto; reflexivity|]. split; auto. right. right. auto.
        * unfold visit_Assign_py in H. inv_bind H. inv_bind H. apply passert_Ok in E. injection H as <- <-. split; [|left; auto]. apply S0.
          assert (R : grow (known st) (SAssign [t] v) = known st) by (cbn [SourceSpec.grow]; rewrite random_plain, Ea, Ed, Ek by auto; destruct t; reflexivity).
          rewrite R. unfold step. match goal with |- context [if ?b then _ else _] => destruct b end; repeat split; auto; intros G; congruence.
  Qed.

  (** conditional expressions *)
  Lemma unroll_case : forall t b, unroll_ifexp (N:=N) [t] b = match b with XIf _ _ _ => unroll_ifexp [t] b | _ => SAssign [t] b end.
  Proof. destruct b; reflexivity. Qed.
  Lemma grow_unroll : forall t v k, grow k (unroll_ifexp [t] v) = grow k (SAssign [t] v).
  Proof.
    intros t. induction v; intros k; try reflexivity. cbn [unroll_ifexp]. rewrite <- unroll_case. change (grow k (SIf v1 [SAssign [t] v2] [unroll_ifexp [t] v3])) with (grow (grow k (SAssign [t] v2)) (unroll_ifexp [t] v3)). rewrite IHv3.
    destruct t; try reflexivity. cbn [SourceSpec.grow SourceSpec.random]. destruct (random k v2) eqn:R2; cbn [orb].
    - match goal with |- (if ?b then _ else _) = _ => destruct b end; auto. extensionality y. destruct (String.eqb y x); auto.
    - reflexivity.
  Qed.

  (** ** Blocks *)
  Definition visits (v : stmt -> visitor (N:=N)) : Prop := forall s st st' is, v s st = Ok (st', is) -> vs_first st = false ->
    step st st' (grow (known st) s) is (writes s).
  Lemma each_step : forall v l st st' is, visits v -> each v l st = Ok (st', is) -> vs_first st = false ->
    vs_first st' = false /\ vs_context st' = vs_context st /\ known st' = fold_left grow l (known st) /\ Forall plain is.
  Proof.
    intros v l. induction l as [|s l IH]; intros st st' is V H F; cbn [each] in H.
    - injection H as <- <-. auto.
    - inv_bind H. destruct r as (st1, i). inv_bind H. destruct r as (st2, j). injection H as <- <-. destruct (V _ _ _ _ E F) as (F1 & C1 & K1 & _ & P1 & _).
      destruct (IH _ _ _ V E0 F1) as (F2 & C2 & K2 & P2). cbn [fold_left]. rewrite <- K1. repeat split; auto; [congruence|]. now apply Forall_app.
  Qed.
  Lemma block_step : forall v l st st' is, visits v -> block v l st = Ok (st', is) -> vs_first st = false ->
    step st st' (fold_left grow l (known st)) is (branch_ok l).
  Proof.
    intros v l st st' is V H F. unfold block in H. rewrite F, orb_false_r in H. inv_bind H. destruct r as (st1, i). injection H as <- <-.
    assert (E0 : each v l st = Ok (st1, i)) by (destruct st; cbn in F; subst; exact E). clear E. rename E0 into E.
    destruct (each_step _ _ _ _ _ V E F) as (F1 & C1 & K1 & P1). unfold step. split; auto. split; auto. split; auto.
    destruct l as [|s [|s' l]]; cbn [List.length Nat.ltb Nat.leb branch_ok].
    - cbn in E. injection E as <- <-. repeat split; auto; cbn; auto. tauto.
    - cbn [each] in E. inv_bind E. destruct r as (st2, j). cbn [bind] in E. injection E as <- <-. rewrite app_nil_r in *. destruct (V _ _ _ _ E0 F) as (_ & _ & _ & L & _ & W). auto.
    - repeat split; cbn; auto. constructor; [exact I|auto].
  Qed.
  Lemma within_step : forall c v st st' is k w, (forall st0 st1 js, v st0 = Ok (st1, js) -> vs_first st0 = false -> known st0 = known st -> step st0 st1 k js w) ->
    c <> CGlobal -> within c v st = Ok (st', is) -> vs_first st = false ->
    vs_first st' = false /\ vs_context st' = vs_context st /\ known st' = k /\ (List.length is <= 1)%nat /\ Forall plain is /\ (w -> List.length is = 1%nat).
  Proof.
    intros c v st st' is k w V Nc H F. unfold within in H. inv_bind H. destruct r as (st1, i). injection H as <- <-. destruct (V _ _ _ E F eq_refl) as (F1 & C1 & K1 & L & P & W).
    repeat split; auto. intros Hw. apply W; auto. unfold global_only. cbn. destruct (vs_context st) as [|c0 [|c1 l]]; cbn; [destruct c; congruence|destruct c0; auto|destruct c0; auto].
  Qed.

  (** the branches of an if *)
  Fixpoint grows (k : scope) (l : list (expr * list stmt)) : scope := match l with [] => k | p :: l => grows (fold_left grow (snd p) k) l end.
  Definition is_SIf (s : stmt) : Prop := match s with SIf _ _ _ => True | _ => False end.
  Lemma if_ind : forall P : stmt -> Prop, (forall s, ~ is_SIf s -> P s) -> (forall c b, P (SIf c b [])) -> (forall c b s, P s -> P (SIf c b [s])) ->
    (forall c b s s' o, P (SIf c b (s :: s' :: o))) -> forall s, P s.
  Proof.
    intros P H0 H1 H2 H3. fix IH 1. intros [i|ts v|c b o|xs f args b|f args|]; try (apply H0; exact (fun x => x)). destruct o as [|s [|s' o]]; [apply H1|apply H2; apply IH|apply H3].
  Qed.
  Lemma grows_unroll : forall s k, is_SIf s -> grows k (unroll_if s) = grow k s.
  Proof.
    induction s using if_ind; intros k Hs; [contradiction|reflexivity| |reflexivity]. destruct s; try reflexivity. exact (IHs (fold_left grow b k) I).
  Qed.
  Lemma branches_step : forall v first l st st' is, visits v -> branches v first l st = Ok (st', is) -> vs_first st = false ->
    vs_first st' = false /\ vs_context st' = vs_context st /\ known st' = grows (known st) l.
  Proof.
    intros v first l. revert first. induction l as [|(c, b) l IH]; intros first st st' is V H F; cbn [branches] in H.
    - injection H as <- <-. auto.
    - inv_bind H. destruct r as (st1, i). inv_bind H. destruct r as (st2, j). injection H as <- <-.
      assert (A : vs_first st1 = false /\ vs_context st1 = vs_context st /\ known st1 = fold_left grow b (known st)).
      { destruct first.
        - destruct (block_step _ _ _ _ _ V E F) as (F1 & C1 & K1 & _). auto.
        - destruct (within_step CElif (block v b) st st1 i (fold_left grow b (known st)) (branch_ok b)) as (F1 & C1 & K1 & _); auto; [|discriminate]. intros st0 st3 js H0 F0 K0. rewrite <- K0. now apply (block_step v). }
      destruct A as (F1 & C1 & K1). destruct (IH false _ _ _ V E0 F1) as (F2 & C2 & K2). cbn [grows snd]. rewrite <- K1. repeat split; auto. congruence.
  Qed.

  Lemma assign_one : forall m ts v st p, visit m (SAssign ts v) st = Ok p -> exists t, ts = [t].
  Proof.
    intros m ts. induction m as [m IH] using lt_wf_ind. intros v st p H. destruct m as [|m]; [discriminate|]. destruct (is_if v) eqn:I; [|destruct v; try discriminate I; cbn [Source.visit] in H; destruct ts as [|t [|]]; try discriminate H; eauto].
    destruct v as [| | | | | | | | | | | |c a b]; try discriminate I. cbn [Source.visit unroll_ifexp] in H. destruct m as [|m]; [discriminate|]. cbn [Source.visit] in H.
    unfold visit_If in H. inv_bind H. inv_bind H. destruct r0 as (st1, i). unfold within in E0. inv_bind E0. destruct r0 as (st2, j). cbn [unroll_if branches] in E1. inv_bind E1. destruct r0 as (st3, i3). unfold block in E2. inv_bind E2. destruct r0 as (st4, i4). cbn [each] in E3. inv_bind E3.
    apply (IH m) in E4; auto.
  Qed.
  Lemma visit_step : forall n, visits (visit n).
  Proof.
    induction n as [|n IH]; intros s st st' is H F; [discriminate|]. cbn [Source.visit] in H. destruct s as [i|ts v|c b o|xs f args b|f args|].
    - injection H as <- <-. unfold step. repeat split; auto. cbn. tauto.
    - destruct (assign_one (Datatypes.S n) ts v st _ H) as (t & ->). destruct (is_if v) eqn:I.
      + assert (H' : visit n (unroll_ifexp [t] v) st = Ok (st', is)) by (destruct v; try discriminate I; exact H). apply IH in H'. rewrite grow_unroll in H'. specialize (H' F). destruct v; try discriminate I. exact H'.
      + apply assign_step; auto. destruct v; try discriminate I; exact H.
    - unfold visit_If in H. inv_bind H. inv_bind H. destruct r0 as (st1, i). injection H as <- <-. unfold within in E0. inv_bind E0. destruct r0 as (st2, j). injection E0 as <- <-.
      destruct (branches_step _ _ _ _ _ _ IH E1 F) as (F1 & C1 & K1). rewrite grows_unroll in K1 by exact I. unfold step. repeat split; auto. constructor; [exact I|auto].
    - unfold visit_For in H. destruct (String.eqb f "range"); [|destruct (String.eqb f "switch"); [|discriminate]].
      + unfold visit_For_vanilla in H. destruct xs as [|x [|]]; try discriminate. inv_bind H. destruct r as (n0, n1). inv_bind H. destruct r as (st1, i). injection H as <- <-.
        destruct (within_step CFor (block (visit n) b) st st1 i (fold_left grow b (known st)) (branch_ok b)) as (F1 & C1 & K1 & _); auto; [|discriminate|].
        * intros st0 st3 js H0 F0 K0. rewrite <- K0. now apply (block_step (visit n)).
        * unfold step. repeat split; auto. constructor; [exact I|auto].
      + unfold visit_For_switch in H. destruct args as [|a1 [|a2 [|]]]; try discriminate. inv_bind H. inv_bind H. destruct r0 as (st1, i). injection H as <- <-.
        destruct (within_step CSwitch (block (visit n) b) st st1 i (fold_left grow b (known st)) (branch_ok b)) as (F1 & C1 & K1 & _); auto; [|discriminate|].
        * intros st0 st3 js H0 F0 K0. rewrite <- K0. now apply (block_step (visit n)).
        * unfold step. repeat split; auto. constructor; [exact I|auto].
    - unfold visit_Call in H. destruct (String.eqb_spec f "condition"); [|destruct (String.eqb_spec f "constrain")].
      + destruct args as [|e0 [|]]; try discriminate. injection H as <- <-. unfold step. repeat split; auto. constructor; [exact I|auto].
      + destruct args as [|e0 [|]]; try discriminate. injection H as <- <-. unfold step. repeat split; auto. constructor; [exact I|auto].
      + injection H as <- <-. unfold step. repeat split; auto. cbn. intros _ [?|?]; congruence.
    - injection H as <- <-. unfold step. repeat split; auto. cbn. tauto.
  Qed.
End Visit.
