(** Factoring, normalisation and disjoint unions of events. *)
From Coq Require Import List Bool String Reals Lra Lia ZArith Classical.
From Verif Require Import Base Num Sets SetSpec SetIv SetProofs SetIvOr SetOr SetOps SetAlg SetBuilt
  Poly Trans TransSpec TransFacts PolyProofs InvProofs InvMain EvProofs ArithProofs Dnf DnfSpec.
Import ListNotations.

Lemma Forall2_weaken : forall A B (P Q : A -> B -> Prop) l m, (forall a b, P a b -> Q a b) -> Forall2 P l m -> Forall2 Q l m.
Proof. intros A B P Q l m I H. induction H; constructor; auto. Qed.

Section Dnf.
  Context {N : numsys} (io : iterorder N) (po : polyoracle N) (fuel : nat).
  Notation tr := (tr N).
  Notation pset := (pset N).
  Implicit Types (w : asg) (e : tr).

  (** ** Literals of an event *)

  Lemma lits_list : forall (P : tr -> Prop) l, Forall P (List.concat (map lits l)) <-> Forall (fun e => Forall P (lits e)) l.
  Proof.
    intros P l. induction l as [|e l IH]; simpl; [split; constructor|]. rewrite Forall_app, IH, Forall_cons_iff. tauto.
  Qed.
  Lemma in_lits_list : forall x (l : list tr), In x (List.concat (map lits l)) <-> exists e, In e l /\ In x (lits e).
  Proof.
    intros x l. rewrite in_concat. split.
    - intros (m & H1 & H2). apply in_map_iff in H1. destruct H1 as (e & <- & H1). eauto.
    - intros (e & H1 & H2). exists (lits e). split; auto. now apply in_map.
  Qed.
  Lemma gev_lits : forall e, gev e -> Forall (fun x => gev x /\ is_basic x = true) (lits e).
  Proof.
    induction e using tr_ind'; intros G; try (destruct G; discriminate).
    - simpl. auto.
    - apply gev_or in G. destruct G as (_ & G). simpl. apply lits_list. induction H; constructor; inversion G; subst; auto.
    - apply gev_and in G. destruct G as (_ & G). simpl. apply lits_list. induction H; constructor; inversion G; subst; auto.
  Qed.
  Lemma regular_lits : forall e g w, gev e -> (regular g e w <-> Forall (fun x => regular g x w) (lits e)).
  Proof.
    induction e using tr_ind'; intros g w G; try (destruct G; discriminate).
    - simpl lits. rewrite Forall_cons_iff. split; [intros K; split; auto|tauto].
    - apply gev_or in G. destruct G as (_ & G). cbn [lits regular]. rewrite lits_list, All_Forall.
      induction H; [split; constructor|]. inversion G; subst. rewrite !Forall_cons_iff. rewrite (H g w), IHForall; tauto.
    - apply gev_and in G. destruct G as (_ & G). cbn [lits regular]. rewrite lits_list, All_Forall.
      induction H; [split; constructor|]. inversion G; subst. rewrite !Forall_cons_iff. rewrite (H g w), IHForall; tauto.
  Qed.
  Lemma regular_flag : forall e b c w, gev e -> regular b e w -> regular c e w.
  Proof.
    intros e b c w G H. apply regular_lits in H; auto. apply regular_lits; auto. pose proof (gev_lits e G) as L.
    rewrite Forall_forall in *. intros x Hx. destruct (L x Hx) as (_ & B). specialize (H x Hx). destruct x; try discriminate. exact H.
  Qed.
  Lemma symbols_lits : forall e x, In x (symbols e) <-> exists l, In l (lits e) /\ In x (symbols l).
  Proof.
    induction e using tr_ind'; intros y; try (split; [intros K; eexists; split; [now left|auto]|intros (l' & [<-|[]] & K); auto]).
    - cbn [symbols lits]. rewrite in_sunions. split.
      + intros (m & H1 & H2). apply in_map_iff in H1. destruct H1 as (e & <- & H1). rewrite Forall_forall in H.
        apply (H e H1) in H2. destruct H2 as (q & H2 & H3). exists q. split; auto. apply in_lits_list. eauto.
      + intros (q & H1 & H2). apply in_lits_list in H1. destruct H1 as (e & H1 & H3). exists (symbols e). split; [now apply in_map|].
        rewrite Forall_forall in H. apply (H e H1). eauto.
    - cbn [symbols lits]. rewrite in_sunions. split.
      + intros (m & H1 & H2). apply in_map_iff in H1. destruct H1 as (e & <- & H1). rewrite Forall_forall in H.
        apply (H e H1) in H2. destruct H2 as (q & H2 & H3). exists q. split; auto. apply in_lits_list. eauto.
      + intros (q & H1 & H2). apply in_lits_list in H1. destruct H1 as (e & H1 & H3). exists (symbols e). split; [now apply in_map|].
        rewrite Forall_forall in H. apply (H e H1). eauto.
  Qed.

  Lemma EventAnd_shape : forall l e, EventAnd (N:=N) l = Ok e -> e = EAnd l.
  Proof. intros l e H. unfold EventAnd in H. inv_bind H. now injection H as <-. Qed.
  Lemma EventOr_shape : forall l e, EventOr (N:=N) l = Ok e -> e = EOr l.
  Proof. intros l e H. unfold EventOr in H. inv_bind H. now injection H as <-. Qed.

  (** A property of literals kept by merging two of them is kept by the operators. *)
  Lemma ev_and_lits : forall (P : tr -> Prop) a b e, ev_and io a b = Ok e ->
    (forall k s v j t u r x, P (EBasic k s v) -> P (EBasic j t u) -> teqb t s = true -> pand io v u = Ok r ->
      event_of_set s r = Some x -> P x) ->
    Forall P (lits a) -> Forall P (lits b) -> Forall P (lits e).
  Proof.
    intros P a b e H Pm Fa Fb.
    destruct a as [| | | | | | | |k s v|l|l], b as [| | | | | | | |j t u|m|m]; simpl in H; try discriminate H;
      try (apply EventAnd_shape in H; subst e; cbn [lits map List.concat] in *; rewrite ?map_app, ?concat_app, ?Forall_app in *;
           cbn [lits map List.concat] in *; rewrite ?Forall_app, ?app_nil_r in *; intuition auto using Forall_nil).
    destruct (teqb t s) eqn:Et.
    - inv_bind H. destruct (event_of_set s r) as [x|] eqn:Ex.
      + injection H as <-. assert (L : lits x = [x]) by (destruct r as [|[]|]; simpl in Ex; inversion Ex; reflexivity).
        rewrite L. constructor; [|constructor]. inversion Fa; inversion Fb; subst. apply (Pm k s v j t u r x); auto.
      + apply EventAnd_shape in H. subst e. cbn in *. inversion Fa; inversion Fb; subst; auto.
    - apply EventAnd_shape in H. subst e. cbn in *. inversion Fa; inversion Fb; subst. auto.
  Qed.
  Lemma ev_or_lits : forall (P : tr -> Prop) a b e, ev_or io a b = Ok e ->
    (forall k s v j t u r x, P (EBasic k s v) -> P (EBasic j t u) -> teqb t s = true -> por io v u = Ok r ->
      event_of_set s r = Some x -> P x) ->
    Forall P (lits a) -> Forall P (lits b) -> Forall P (lits e).
  Proof.
    intros P a b e H Pm Fa Fb.
    destruct a as [| | | | | | | |k s v|l|l], b as [| | | | | | | |j t u|m|m]; simpl in H; try discriminate H;
      try (apply EventOr_shape in H; subst e; cbn [lits map List.concat] in *; rewrite ?map_app, ?concat_app, ?Forall_app in *;
           cbn [lits map List.concat] in *; rewrite ?Forall_app, ?app_nil_r in *; intuition auto using Forall_nil).
    destruct (teqb t s) eqn:Et.
    - inv_bind H. destruct (event_of_set s r) as [x|] eqn:Ex.
      + injection H as <-. assert (L : lits x = [x]) by (destruct r as [|[]|]; simpl in Ex; inversion Ex; reflexivity).
        rewrite L. constructor; [|constructor]. inversion Fa; inversion Fb; subst. apply (Pm k s v j t u r x); auto.
      + apply EventOr_shape in H. subst e. cbn in *. inversion Fa; inversion Fb; subst; auto.
    - apply EventOr_shape in H. subst e. cbn in *. inversion Fa; inversion Fb; subst. auto.
  Qed.
  Lemma reduce_lits : forall (op : tr -> tr -> res tr) (P : tr -> Prop) l e,
    (forall a b c, op a b = Ok c -> Forall P (lits a) -> Forall P (lits b) -> Forall P (lits c)) ->
    reduceM op l = Ok e -> Forall (fun x => Forall P (lits x)) l -> Forall P (lits e).
  Proof.
    intros op P [|a l] e Op H F; [discriminate|]. simpl in H. inversion F as [|? ? Fa Fl]; subst. clear F.
    revert a Fa H. induction Fl as [|b l Fb Fl IH]; intros a Fa H; simpl in H; [now injection H as <-|].
    inv_bind H. eapply IH; [|exact H]. eapply Op; eauto.
  Qed.

  (** the symbol of the merged literal is that of the first *)
  Lemma event_of_set_shape : forall (s : tr) r x, event_of_set s r = Some x -> exists k, x = EBasic k s r /\ (k = KNom <-> nominal_set r).
  Proof.
    intros s [|[]|] x H; simpl in H; try discriminate; injection H as <-; eexists; (split; [reflexivity|]); simpl; split; intros K; try discriminate K; tauto.
  Qed.

  (** ** Regularity of a conjunction *)

  Lemma regular_mono : forall (t : tr) w, regular true t w -> forall g, regular g t w.
  Proof.
    induction t using tr_ind'; intros w R g; cbn [regular] in *; auto.
    - destruct R as (R & Z). split; [auto|]. intros _. now apply Z.
    - destruct R as (R & D). split; auto. clear D. rewrite All_Forall in *. rewrite Forall_forall in *. intros p Hp.
      destruct (R p Hp). destruct (H p Hp). auto.
    - rewrite All_Forall in *. rewrite Forall_forall in *. intros p Hp. auto.
    - rewrite All_Forall in *. rewrite Forall_forall in *. intros p Hp. auto.
  Qed.
  Lemma hasinf_mem : forall s : pset, hasinf s = true -> exists x, mem (RNum x) s /\ (x = NInf \/ x = PInf).
  Proof.
    intros [|[|vs|]|] H; try discriminate. simpl in H. apply existsb_exists in H. destruct H as (x & H1 & H2).
    exists (eR x). split; [simpl; eauto|]. destruct x; try discriminate; auto.
  Qed.
  Lemma mem_inf_hasinf : forall k (t : tr) (s : pset) x, gev (EBasic k t s) -> mem (RNum x) s -> x = NInf \/ x = PInf -> hasinf s = true.
  Proof.
    intros k t s x G M I. apply gev_wf in G. destruct G as (_ & W & K & _). destruct s as [|[vs f|vs|i]|u].
    - destruct M.
    - destruct M.
    - simpl in M. destruct M as (y & H1 & H2). simpl. apply existsb_exists. exists y. split; auto. destruct y; simpl in H2; destruct I; subst; try discriminate; auto.
    - exfalso. simpl in W, M. destruct W as (W1 & W2 & W3). unfold iv_mem in M. destruct i as [a b lo ro]. simpl in *.
      unfold ele, elt, eR in *. destruct I; subst x; destruct a, b, lo, ro; simpl in *; intuition congruence.
    - destruct k; [destruct K; discriminate|destruct K as [|(? & ?)]; discriminate|destruct K as [|K]; [discriminate|destruct K]].
  Qed.
  Lemma and_not_complemented : forall k j (s t : tr) v u r, gev (EBasic k s v) -> gev (EBasic j t u) ->
    complemented v = false -> pand io v u = Ok r -> nominal_set r -> nominal_set v /\ complemented r = false.
  Proof.
    intros k j s t v u r G1 G2 C H Nr. apply gev_wf in G1, G2. destruct G1 as (_ & _ & K1 & _), G2 as (_ & _ & K2 & _).
    assert (B1 : forall a, v = PUnion a -> False).
    { intros a ->. destruct k; [destruct K1; discriminate|destruct K1 as [|(? & ?)]; discriminate|destruct K1 as [|K]; [discriminate|destruct K]]. }
    assert (B2 : forall a, u = PUnion a -> False).
    { intros a ->. destruct j; [destruct K2; discriminate|destruct K2 as [|(? & ?)]; discriminate|destruct K2 as [|K]; [discriminate|destruct K]]. }
    destruct v as [|b|a]; [injection H as <-; destruct Nr| |edestruct B1; eauto].
    destruct u as [|c|a]; [injection H as <-; destruct Nr| |edestruct B2; eauto].
    assert (NR : forall vs, ~ nominal_set (freal_or_empty (N:=N) vs)) by (intros vs; unfold freal_or_empty; destruct (dedup _ vs); intros K; exact K).
    destruct b as [vs f|vs|i], c as [ws g|ws|i']; simpl in H; try (injection H as <-; try (now destruct Nr); now apply NR in Nr).
    - injection H as <-. split; [exact I|]. simpl in C. unfold and_nom in *. rewrite C in *. cbn [negb] in *. unfold fnom_or_empty in *. destruct (dedup _ _); [destruct Nr|reflexivity].
    - exfalso. revert H Nr. unfold iv_and.
      repeat match goal with |- context[if ?b then _ else _] => destruct b end; intros H; try (injection H as <-; simpl; tauto);
      inv_bind H; injection H as <-; simpl; tauto.
  Qed.

  Lemma regular_merge : forall k s v j t u r x w, gev (EBasic k s v) -> gev (EBasic j t u) -> pand io v u = Ok r ->
    event_of_set s r = Some x -> (forall g, regular g (EBasic k s v) w) -> forall g, regular g x w.
  Proof.
    intros k s v j t u r x w G1 G2 H Ex R g. destruct (event_of_set_shape _ _ _ Ex) as (l & -> & Kn).
    pose proof (gev_wf _ _ _ G1) as (_ & W1 & K1 & _). pose proof (gev_wf _ _ _ G2) as (_ & W2 & _).
    destruct (pand_f io _ _ _ W1 W2 H) as (Wr & _ & _ & M). specialize (R g). cbn [regular] in *. destruct R as (R1 & R2). split.
    - destruct (hasinf r) eqn:Hr; [|destruct (hasinf v); auto using regular_mono].
      apply hasinf_mem in Hr. destruct Hr as (y & H1 & H2). apply M in H1. destruct H1 as (H1 & _).
      now rewrite (mem_inf_hasinf _ _ _ _ G1 H1 H2) in R1.
    - intros ->. assert (Nr : nominal_set r) by tauto.
      assert (k = KNom).
      { assert (exists y, mem y r) as (y & Hy) by (apply nonempty_mem; [auto|intros ->; destruct Nr]).
        pose proof Hy as Hy'. apply M in Hy'. destruct Hy' as (Hy' & _). destruct r as [|[]|]; try tauto. destruct y as [y|y]; [destruct Hy|].
        destruct k; auto; exfalso; [destruct K1 as (? & ->)|destruct K1 as [->|(? & ->)]]; exact Hy'. }
      subst k. specialize (R2 eq_refl). destruct R2 as [R2|[(R2 & R3)|R2]]; auto. right. left. split; auto.
      now apply (and_not_complemented _ _ _ _ _ _ _ G1 G2 R2 H).
  Qed.

  Definition ok_at w e : Prop := gev e /\ is_basic e = true /\ forall g, regular g e w.
  Lemma ok_at_lits : forall e g w, gev e -> regular g e w -> Forall (ok_at w) (lits e).
  Proof.
    intros e g w G R. pose proof (gev_lits e G) as L. apply regular_lits in R; auto. rewrite Forall_forall in *.
    intros x Hx. destruct (L x Hx) as (Gx & Bx). split; auto. split; auto. intros h. eapply regular_flag; eauto.
  Qed.
  Lemma lits_ok_at : forall e w, gev e -> Forall (ok_at w) (lits e) -> forall g, regular g e w.
  Proof.
    intros e w G F g. apply regular_lits; auto. eapply Forall_impl; [|exact F]. intros x (_ & _ & K); auto.
  Qed.
  Lemma ev_and_regular : forall a b e w g, gev a -> gev b -> regular g a w -> regular g b w -> ev_and io a b = Ok e -> forall h, regular h e w.
  Proof.
    intros a b e w g Ga Gb Ra Rb H. destruct (ev_and_ok io a b e Ga Gb H) as (Ge & _). apply lits_ok_at; auto.
    apply (ev_and_lits (ok_at w) a b e H); [|apply (ok_at_lits a g); auto|apply (ok_at_lits b g); auto].
    intros k s v j t u r x (G1 & _ & R1) (G2 & _ & R2) Et Hp Ex. pose proof (gev_wf _ _ _ G1) as (_ & W1 & _). pose proof (gev_wf _ _ _ G2) as (_ & W2 & _).
    destruct (pand_f io _ _ _ W1 W2 Hp) as (Wr & _). destruct (event_of_set_ok _ _ _ _ _ G1 Wr Ex) as (Gx & _). split; [auto|].
    destruct (event_of_set_shape _ _ _ Ex) as (l & -> & _). split; [auto|]. apply (regular_merge k s v j t u r); auto.
  Qed.

  (** ** Factoring *)

  (** a property of the literals filed under a key, kept when two of them are merged *)
  Definition mergeable (Q : string -> tr -> Prop) : Prop :=
    forall key k s v j t u r x, Q key (EBasic k s v) -> Q key (EBasic j t u) -> gev (EBasic k s v) -> gev (EBasic j t u) ->
      teqb t s = true -> pand io v u = Ok r -> event_of_set s r = Some x -> Q key x.
  Definition filed (Q : string -> tr -> Prop) (c : clause (N:=N)) : Prop :=
    Forall (fun p => gev (snd p) /\ Forall (Q (fst p)) (lits (snd p))) c /\ NoDup (map fst c).

  Lemma merge_gev : forall Q a b e key, mergeable Q -> gev a -> gev b -> ev_and io a b = Ok e ->
    Forall (Q key) (lits a) -> Forall (Q key) (lits b) -> Forall (Q key) (lits e).
  Proof.
    intros Q a b e key M Ga Gb H Fa Fb.
    assert (K : Forall (fun x => gev x /\ Q key x) (lits e)).
    { apply (ev_and_lits _ a b e H).
      - intros k s v j t u r x (G1 & Q1) (G2 & Q2) Et Hp Ex. split; [|eapply (M key k s v j t u); eauto].
        pose proof (gev_wf _ _ _ G1) as (_ & W1 & _). pose proof (gev_wf _ _ _ G2) as (_ & W2 & _).
        destruct (pand_f io _ _ _ W1 W2 Hp) as (Wr & _). now destruct (event_of_set_ok _ _ _ _ _ G1 Wr Ex).
      - pose proof (gev_lits a Ga) as L. rewrite Forall_forall in *. intros x Hx. split; [apply L|]; auto.
      - pose proof (gev_lits b Gb) as L. rewrite Forall_forall in *. intros x Hx. split; [apply L|]; auto. }
    eapply Forall_impl; [|exact K]. intros x (_ & Kx); exact Kx.
  Qed.

  Lemma clause_holds_cons : forall k e c w, clause_holds (N:=N) ((k, e) :: c) w <-> holds e w /\ clause_holds c w.
  Proof.
    intros k e c w. unfold clause_holds. split.
    - intros H. split; [apply (H k); now left|]. intros k' e' K. apply (H k'); now right.
    - intros (H1 & H2) k' e' [K|K]; [injection K as <- <-; auto|eauto].
  Qed.

  Lemma add_key_ok : forall Q c key ev c', mergeable Q -> filed Q c -> gev ev -> Forall (Q key) (lits ev) ->
    add_key io c key ev = Ok c' ->
    filed Q c' /\ (forall w, clause_holds c' w <-> clause_holds c w /\ holds ev w) /\
    (forall x, In x (map fst c') <-> In x (map fst c) \/ x = key).
  Proof.
    intros Q c key ev c' M F G Fe. revert c'. destruct F as (F & Nd). induction c as [|(k, e) c IH]; intros c' H; cbn [add_key] in H.
    - injection H as <-. split; [split; [auto|simpl; constructor; [tauto|constructor]]|]. split.
      + intros w. rewrite clause_holds_cons. tauto.
      + simpl. intros x. split; [intros [<-|[]]; auto|intros [[]|<-]; auto].
    - inversion F as [|? ? (Ge & Qe) Fc]; subst. simpl in Nd. inversion Nd as [|? ? Nk Nc]; subst. cbn [fst snd] in *.
      destruct (String.eqb key k) eqn:Ek.
      + apply String.eqb_eq in Ek. subst k. inv_bind H. injection H as <-. destruct (ev_and_ok io _ _ _ Ge G E) as (Gr & Hr). split; [|split].
        * split; [|simpl; constructor; auto]. constructor; auto. cbn [fst snd]. split; auto. now apply (merge_gev Q e ev).
        * intros w. rewrite !clause_holds_cons, Hr. tauto.
        * simpl. intros x. split; [tauto|]. intros [K|K]; auto.
      + inv_bind H. injection H as <-. destruct (IH Fc Nc _ E) as ((F1 & N1) & H1 & K1). split; [|split].
        * split; [constructor; auto|]. simpl. constructor; auto. intros K. apply K1 in K. destruct K as [K|K]; [tauto|].
          subst k. now rewrite String.eqb_refl in Ek.
        * intros w. rewrite !clause_holds_cons, H1. tauto.
        * simpl. intros x. rewrite K1. tauto.
  Qed.

  (** the literal is filed under the value of the lookup at each of its symbols *)
  Definition keyed (lk : list (string * string)) (key : string) (e : tr) : Prop :=
    forall s, In s (symbols e) -> lookup s lk = Some key.
  Lemma keyed_merge : forall lk (R : tr -> Prop),
    (forall k s v j t u r x, R (EBasic k s v) -> R (EBasic j t u) -> gev (EBasic k s v) -> gev (EBasic j t u) ->
      teqb t s = true -> pand io v u = Ok r -> event_of_set s r = Some x -> R x) ->
    mergeable (fun key e => keyed lk key e /\ R e).
  Proof.
    intros lk R M key k s v j t u r x (K1 & R1) (K2 & R2) G1 G2 Et Hp Ex. split; [|eapply (M k s v j t u); eauto].
    destruct (event_of_set_shape _ _ _ Ex) as (l & -> & _). exact K1.
  Qed.

  Lemma factor_lit_ok : forall lk e k x, factor_lit lk e = Ok (k, x) -> x = e /\ keyed lk k e.
  Proof.
    intros lk e k x H. unfold factor_lit in H. destruct (symbols e) as [|s [|]] eqn:Es; try discriminate.
    destruct (lookup s lk) as [k'|] eqn:El; [|discriminate]. injection H as <- <-. split; auto. intros y Hy. rewrite Es in Hy.
    destruct Hy as [<-|[]]. auto.
  Qed.

  Definition lit_list (R : tr -> Prop) (l : list tr) : Prop := Forall (fun e => gev e /\ is_basic e = true /\ R e) l.

  Lemma fold_keys : forall lk (R : tr -> Prop) l c c', mergeable (fun key e => keyed lk key e /\ R e) ->
    filed (fun key e => keyed lk key e /\ R e) c -> lit_list R l ->
    foldM (fun c e => do ke <- factor_lit lk e; add_key io c (fst ke) (snd ke)) l c = Ok c' ->
    filed (fun key e => keyed lk key e /\ R e) c' /\
    (forall w, clause_holds c' w <-> clause_holds c w /\ Forall (fun e => holds e w) l) /\
    (c <> [] \/ l <> [] -> c' <> []).
  Proof.
    intros lk R l c c' M F L. revert c c' F. induction L as [|e l (Ge & Be & Re) L IH]; intros c c' F H; cbn [foldM] in H.
    - injection H as <-. split; auto. split; [|intros [K|K]; congruence]. intros w. split; [intros K; split; auto|tauto].
    - inv_bind H. inv_bind E. destruct r0 as (k, x). cbn [fst snd] in E. apply factor_lit_ok in E0. destruct E0 as (-> & Ke).
      assert (Le : lits e = [e]) by (destruct e; try discriminate; reflexivity).
      apply (add_key_ok _ _ _ _ _ M F Ge) in E; [|rewrite Le; auto]. destruct E as (F' & H' & K').
      apply IH in H; auto. destruct H as (F'' & H'' & K''). split; auto. split.
      + intros w. rewrite H'', H', Forall_cons_iff. tauto.
      + intros _. apply K''. left. intros ->. apply (K' k). auto.
  Qed.

  Lemma factor_clause_ok : forall lk (R : tr -> Prop) e c, mergeable (fun key e => keyed lk key e /\ R e) ->
    gev e -> Forall R (lits e) -> factor_clause io lk e = Ok c ->
    filed (fun key e => keyed lk key e /\ R e) c /\ (forall w, clause_holds c w <-> holds e w) /\ c <> [].
  Proof.
    intros lk R e c M G Re H. pose proof (gev_lits e G) as Ge.
    destruct e as [| | | | | | | |k t v|l|l]; try discriminate H; cbn [factor_clause] in H.
    - inv_bind H. injection H as <-. destruct r as (k', x). apply factor_lit_ok in E. destruct E as (-> & Ke). split; [|split; [|discriminate]].
      + split; [|simpl; constructor; [tauto|constructor]]. constructor; [|constructor]. split; auto. cbn [fst snd lits]. inversion Re; subst. auto.
      + intros w. rewrite clause_holds_cons. split; [tauto|]. intros K. split; auto. intros ? ? [].
    - unfold factor_and in H. inv_bind H. apply passert_Ok in E. rewrite forallb_forall in E.
      apply gev_and in G. destruct G as (Nl & Gl).
      assert (L : lit_list R l).
      { cbn [lits] in Re. apply lits_list in Re. unfold lit_list. rewrite Forall_forall in *. intros x Hx. split; auto. split; auto.
        specialize (Re x Hx). specialize (E x Hx). destruct x; try discriminate. now inversion Re. }
      apply fold_keys with (R := R) in H; auto; [|split; constructor]. destruct H as (F & H & Ne). split; auto. split; auto.
      intros w. rewrite H, holds_and, Forall_forall. split; [tauto|]. intros K. split; auto. intros ? ? [].
  Qed.

  Lemma dnf_factor_with_ok : forall lk (R : tr -> Prop) e f, mergeable (fun key e => keyed lk key e /\ R e) ->
    gev e -> Forall R (lits e) -> dnf_factor_with io lk e = Ok f ->
    Forall2 (fun a c => filed (fun key e => keyed lk key e /\ R e) c /\ (forall w, clause_holds c w <-> holds a w) /\ c <> []) (clauses e) f.
  Proof.
    intros lk R e f M G Re H. destruct e as [| | | | | | | |k t v|l|l]; try discriminate H; cbn [dnf_factor_with] in H.
    - inv_bind H. injection H as <-. constructor; [|constructor]. now apply factor_clause_ok.
    - inv_bind H. apply mapM_Forall2 in H. apply gev_or in G. destruct G as (_ & G). cbn [lits] in Re. apply lits_list in Re. cbn [clauses].
      clear E. induction H; constructor; inversion G; inversion Re; subst; auto. now apply factor_clause_ok.
    - inv_bind H. injection H as <-. constructor; [|constructor]. now apply factor_clause_ok.
  Qed.
  Lemma holds_clauses : forall e w, holds e w <-> exists a, In a (clauses e) /\ holds a w.
  Proof.
    intros e w. destruct e; try (split; [intros H; eexists; split; [now left|exact H]|intros (a & [<-|[]] & H); exact H]).
    cbn [clauses]. now rewrite holds_or.
  Qed.
  Lemma lookup_self : forall l s k, lookup s (map (fun s => (s, s)) l) = Some k -> k = s /\ In s l.
  Proof.
    induction l as [|x l IH]; intros s k H; simpl in H; [discriminate|]. destruct (String.eqb s x) eqn:E.
    - apply String.eqb_eq in E. subst. injection H as <-. simpl; auto.
    - apply IH in H. simpl; tauto.
  Qed.

  (** ** Literals of the disjunctive normal form *)

  Lemma to_dnf_list_lits : forall e c x, In c (to_dnf_list e) -> In x c -> In x (lits e).
  Proof.
    induction e using tr_ind'; intros c y Hc Hy; try (cbn in *; destruct Hc as [<-|[]]; exact Hy).
    - cbn [to_dnf_list lits] in *. apply in_concat in Hc. destruct Hc as (m & H1 & H2). apply in_map_iff in H1. destruct H1 as (e & <- & H1).
      apply in_lits_list. exists e. split; auto. rewrite Forall_forall in H. apply (H e H1 c); auto.
    - cbn [to_dnf_list lits] in *. apply in_map_iff in Hc. destruct Hc as (d & <- & H1). apply in_product in H1. apply in_concat in Hy.
      destruct Hy as (q & H2 & H3). apply in_lits_list. revert H1. rewrite Forall_forall in H.
      assert (Gen : forall l', incl l' l -> Forall2 (fun x0 L => In x0 L) d (map to_dnf_list l') -> exists e, In e l' /\ In q (to_dnf_list e)).
      { intros l' Il F. remember (map to_dnf_list l') as M eqn:EM. clear H H3. revert l' Il EM. induction F as [|d0 L0 d1 M0 HdL F IHF]; intros l' Il EM; [destruct H2|].
        destruct l' as [|a l']; [discriminate|]. simpl in EM. injection EM as -> ->. destruct H2 as [->|H2].
        - exists a. split; auto. now left.
        - destruct (IHF H2 l') as (e & K1 & K2); auto; [intros z Hz; apply Il; now right|]. exists e. split; auto. now right. }
      intros F. destruct (Gen l (incl_refl l)) as (e & K1 & K2); auto. exists e. split; auto. apply (H e K1 q); auto.
  Qed.
  Lemma simplify_lits : forall (mk : list tr -> res tr) l e, (mk = EventAnd (N:=N) \/ mk = EventOr (N:=N)) -> simplify_event mk l = Ok e ->
    lits e = List.concat (map lits l).
  Proof.
    intros mk l e M H. assert (K : mk l = Ok e -> lits e = List.concat (map lits l)).
    { destruct M as [-> | ->]; intros K; [apply EventAnd_shape in K|apply EventOr_shape in K]; subst; reflexivity. }
    unfold simplify_event in H. destruct l as [|a [|b l]]; auto. injection H as <-. simpl. now rewrite app_nil_r.
  Qed.
  Lemma to_dnf_lits : forall e d x, gev e -> to_dnf e = Ok d -> In x (lits d) -> In x (lits e).
  Proof.
    intros e d x G H Hx. unfold to_dnf in H. inv_bind H. apply simplify_lits in H; auto. rewrite H in Hx. apply in_lits_list in Hx.
    destruct Hx as (a & H1 & H2). apply mapM_Forall2 in E. destruct (to_dnf_list_ok e G) as (_ & F).
    assert (exists c, In c (to_dnf_list e) /\ simplify_event (EventAnd (N:=N)) c = Ok a) as (c & Hc & Sc).
    { clear -E H1. induction E; [destruct H1|]. destruct H1 as [<-|H1]; [eexists; split; [now left|auto]|].
      destruct (IHE H1) as (c & K1 & K2). exists c. split; [now right|auto]. }
    apply simplify_lits in Sc; auto. rewrite Sc in H2. apply in_lits_list in H2. destruct H2 as (y & H2 & H3).
    rewrite Forall_forall in F. destruct (F c Hc) as (_ & Fc). rewrite Forall_forall in Fc. destruct (Fc y H2) as (_ & By).
    assert (x = y) by (destruct y; try discriminate; destruct H3 as [<-|[]]; reflexivity). subst y.
    eapply to_dnf_list_lits; eauto.
  Qed.

  (** ** Solutions of clauses *)

  Definition sol_holds (c : list (string * pset)) w : Prop := forall k v, In (k, v) c -> fm (w k) v.
  Lemma sol_holds_cons : forall k v c w, sol_holds ((k, v) :: c) w <-> fm (w k) v /\ sol_holds c w.
  Proof.
    intros k v c w. unfold sol_holds. split.
    - intros H. split; [apply (H k); now left|]. intros k' e' K. apply (H k'); now right.
    - intros (H1 & H2) k' e' [K|K]; [injection K as <- <-; auto|eauto].
  Qed.
  Definition self (e : tr) : list (string * string) := map (fun s => (s, s)) (symbols e).
  Lemma keyed_only : forall e key x, keyed (self e) key x -> only key x.
  Proof. intros e key x K s Hs. apply K in Hs. apply lookup_self in Hs. symmetry. tauto. Qed.
  Lemma keyed_lits : forall lk key e, Forall (keyed lk key) (lits e) -> keyed lk key e.
  Proof. intros lk key e F s Hs. apply symbols_lits in Hs. destruct Hs as (l & H1 & H2). rewrite Forall_forall in F. now apply (F l). Qed.

  Lemma solve_clause_shape : forall c sol, solve_clause io po fuel c = Ok sol ->
    Forall2 (fun p q => fst q = fst p /\ solve io po fuel (snd p) = Ok (snd q)) c sol.
  Proof.
    intros c sol H. apply mapM_Forall2 in H. eapply Forall2_weaken; [|exact H]. intros p q K. cbv beta in K. inv_bind K. injection K as <-. auto.
  Qed.
  Lemma solve_clause_ok : forall e c sol, filed (fun key x => keyed (self e) key x /\ True) c -> solve_clause io po fuel c = Ok sol ->
    Forall (fun q => wf (snd q)) sol /\ map fst sol = map fst c /\
    forall w, (forall p, In p c -> exists g, regular g (snd p) w) -> (sol_holds sol w <-> clause_holds c w).
  Proof.
    intros e c sol (F & _) H. apply solve_clause_shape in H. induction H as [|(k, x) (k', v) c sol (H1 & H2) H IH].
    - split; [constructor|]. split; auto. intros w _. unfold sol_holds, clause_holds. split; intros K ? ? [].
    - cbn [fst snd] in *. subst k'. inversion F as [|? ? (Gx & Kx) Fc]; subst. cbn [fst snd] in *. destruct (IH Fc) as (A & B & C).
      assert (On : only k x).
      { apply (keyed_only e). apply keyed_lits. eapply Forall_impl; [|exact Kx]. intros y (K & _); exact K. }
      destruct Gx as (Gx & Ex).
      pose proof (fun b => solve_ok io po fuel k x v b Gx On Ex H2) as S. destruct (S true) as (W & _). split; [constructor; auto|]. split; [simpl; now f_equal|].
      intros w R. rewrite sol_holds_cons, clause_holds_cons, C by (intros; apply R; now right).
      destruct (R (k, x)) as (g & Rg); [now left|]. rewrite (proj2 (S g) w Rg). tauto.
  Qed.

  Lemma sol_eqb_holds : forall c d w, sol_eqb c d = true -> (sol_holds c w <-> sol_holds d w).
  Proof.
    unfold sol_eqb. induction c as [|(k, v) c IH]; intros [|(k', v') d] w H; try discriminate; [tauto|].
    simpl in H. apply andb_true_iff in H. destruct H as (H1 & H2). apply andb_true_iff in H1. destruct H1 as (H0 & H1). cbn [fst snd] in *.
    apply String.eqb_eq in H0. subst k'. rewrite !sol_holds_cons, (IH d w H2). pose proof (peqb_mem _ _ H1 (inj (w k))) as M.
    unfold fm. rewrite M. tauto.
  Qed.
  Lemma unseen_incl : forall l seen c, In c (unseen (N:=N) seen l) -> In c l.
  Proof.
    induction l as [|a l IH]; intros seen c H; simpl in H; [destruct H|]. destruct (inb _ a seen).
    - right. eauto.
    - destruct H as [<-|H]; [now left|right; eauto].
  Qed.
  Lemma unseen_complete : forall l seen w, (exists c, In c l /\ sol_holds c w) ->
    (exists c, In c (unseen seen l) /\ sol_holds c w) \/ (exists c, In c seen /\ sol_holds c w).
  Proof.
    induction l as [|a l IH]; intros seen w (c & Hc & Hw); [destruct Hc|]. cbn [unseen].
    destruct (inb sol_eqb a seen) eqn:E.
    - apply existsb_exists in E. destruct E as (b & Hb & E).
      destruct Hc as [<-|Hc]; [right; exists b; split; auto; now apply (sol_eqb_holds a b)|].
      destruct (IH (seen ++ [a]) w) as [K|(d & Hd & K)]; eauto. apply in_app_iff in Hd. destruct Hd as [Hd|[<-|[]]]; [eauto|].
      right. exists b. split; auto. now apply (sol_eqb_holds a b).
    - destruct Hc as [<-|Hc]; [left; exists a; split; auto; now left|].
      destruct (IH (seen ++ [a]) w) as [(d & Hd & K)|(d & Hd & K)]; eauto.
      + left. exists d. split; auto. now right.
      + apply in_app_iff in Hd. destruct Hd as [Hd|[<-|[]]]; [eauto|]. left. exists a. split; auto. now left.
  Qed.
  Lemma unseen_nonempty : forall l, l <> [] -> unseen (N:=N) [] l <> [].
  Proof. intros [|a l] H; [congruence|]. cbn [unseen inb existsb]. discriminate. Qed.

  Definition lit_on (x : string) (e : tr) : Prop := exists k v, e = EBasic k (TId x) v.
  Lemma t_in_lits : forall x v e, t_in io (TId x) v = Ok e -> Forall (lit_on x) (lits e).
  Proof.
    assert (B : forall x v e, t_in_basic (N:=N) (TId x) v = Ok e -> Forall (lit_on x) (lits e)).
    { intros x v e H. destruct v as [|[]|]; try discriminate H; injection H as <-; cbn; constructor; auto; eexists; eauto. }
    intros x v e H. destruct v as [|b|u]; [now apply (B x PEmpty)|now apply (B x (PB b))|]. cbn [t_in] in H. inv_bind H. apply mapM_Forall2 in E.
    eapply (reduce_lits (ev_or io)); [|exact H|].
    - intros a b c Hc. apply (ev_or_lits _ a b c Hc). intros k s v' j t u' r' y (k1 & v1 & H1) _ _ _ Ey.
      injection H1 as -> -> ->. destruct (event_of_set_shape _ _ _ Ey) as (l & -> & _). unfold lit_on. eauto.
    - clear H. induction E; constructor; eauto.
  Qed.

  Lemma lit_on_and : forall (P : string -> Prop) a b c, ev_and io a b = Ok c ->
    Forall (fun e => exists x, P x /\ lit_on x e) (lits a) -> Forall (fun e => exists x, P x /\ lit_on x e) (lits b) ->
    Forall (fun e => exists x, P x /\ lit_on x e) (lits c).
  Proof.
    intros P a b c H. apply (ev_and_lits _ a b c H). intros k s v j t u r y (x & Px & k1 & v1 & H1) _ _ _ Ey.
    injection H1 as -> -> ->. destruct (event_of_set_shape _ _ _ Ey) as (l & -> & _). exists x. split; auto. unfold lit_on. eauto.
  Qed.
  Lemma lit_on_or : forall (P : string -> Prop) a b c, ev_or io a b = Ok c ->
    Forall (fun e => exists x, P x /\ lit_on x e) (lits a) -> Forall (fun e => exists x, P x /\ lit_on x e) (lits b) ->
    Forall (fun e => exists x, P x /\ lit_on x e) (lits c).
  Proof.
    intros P a b c H. apply (ev_or_lits _ a b c H). intros k s v j t u r y (x & Px & k1 & v1 & H1) _ _ _ Ey.
    injection H1 as -> -> ->. destruct (event_of_set_shape _ _ _ Ey) as (l & -> & _). exists x. split; auto. unfold lit_on. eauto.
  Qed.

  Lemma conj_of_ok : forall c e, Forall (fun q => wf (snd q)) c -> conj_of io c = Ok e ->
    gev e /\ (forall w, holds e w <-> sol_holds c w) /\ Forall (fun x => exists s, In s (map fst c) /\ lit_on s x) (lits e).
  Proof.
    intros c e W H. unfold conj_of in H. inv_bind H. apply mapM_Forall2 in E.
    assert (F : Forall2 (fun p x => gev x /\ (forall w, holds x w <-> fm (w (fst p)) (snd p)) /\ Forall (lit_on (fst p)) (lits x)) c r).
    { clear H. induction E as [|(k, v) x c r E0 E IH]; constructor; inversion W; subst; auto. cbn [fst snd] in *.
      pose proof (t_in_lits _ _ _ E0). destruct (t_in_ok io (TId k) v x) as (A & B); simpl; auto. split; auto. split; auto.
      intros w. rewrite B. simpl. split; [intros (y & K1 & K2); now injection K1 as ->|eauto]. }
    pose proof H as H'. apply reduce_and in H; [|clear -F; induction F as [|? ? ? ? (K & _)]; constructor; auto]. destruct H as (G & H).
    split; auto. split.
    - intros w. rewrite H. symmetry. clear -F. induction F as [|(k, v) x c r (_ & K & _) F IH].
      + split; [intros _ ? []|intros _ ? ? []].
      + rewrite sol_holds_cons, IH. cbn [fst snd] in K. rewrite <- K. split.
        * intros (H1 & H2) y [<-|Hy]; auto.
        * intros H. split; [apply H; now left|intros; apply H; now right].
    - eapply (reduce_lits (ev_and io)); [|exact H'|].
      + intros a b d. apply (lit_on_and (fun s => In s (map fst c))).
      + clear -F. induction F as [|p x c r (_ & _ & K) F IH]; constructor.
        * eapply Forall_impl; [|exact K]. intros y Ky. exists (fst p). split; auto. now left.
        * eapply Forall_impl; [|exact IH]. intros y Ky. eapply Forall_impl; [|exact Ky]. intros z (s & H1 & H2). exists s. split; auto. now right.
  Qed.

  (** ** Normalisation *)

  Definition normalize_general e : res (option tr) :=
    do d <- to_dnf e;
    do f <- dnf_factor io d;
    do sols <- mapM (solve_clause io po fuel) f;
    match filter all_nonempty sols with
    | [] => Ok None
    | solutions =>
      do cs <- mapM (conj_of io) (unseen [] solutions);
      do d <- reduceM (ev_or io) cs;
      do d' <- to_dnf d; Ok (Some d')
    end.
  Lemma dnf_normalize_cases : forall e, (exists k x v, e = EBasic k (TId x) v /\ dnf_normalize io po fuel e = Ok (Some e)) \/
    dnf_normalize io po fuel e = normalize_general e.
  Proof. intros e. destruct e; try (right; reflexivity). destruct e; try (right; reflexivity). left. eauto 6. Qed.

  Lemma mergeable_regular : forall lk w, mergeable (fun key e => keyed lk key e /\ (fun x => forall g, regular g x w) e).
  Proof.
    intros lk w. apply keyed_merge. intros k s v j t u r x R1 R2 G1 G2 Et Hp Ex. apply (regular_merge k s v j t u r); auto.
  Qed.
  Lemma mergeable_true : forall lk, mergeable (fun key e => keyed lk key e /\ True).
  Proof. intros lk. apply keyed_merge with (R := fun _ => True). auto. Qed.

  Lemma Forall2_trans_ex : forall A B C (P : A -> B -> Prop) (Q : B -> C -> Prop) l m n,
    Forall2 P l m -> Forall2 Q m n -> Forall2 (fun a c => exists b, P a b /\ Q b c) l n.
  Proof.
    intros A B C P Q l m n H. revert n. induction H; intros n K; inversion K; subst; constructor; eauto.
  Qed.

  Lemma solutions_ok : forall d f sols, gev d -> dnf_factor io d = Ok f -> mapM (solve_clause io po fuel) f = Ok sols ->
    Forall2 (fun a s => Forall (fun q => wf (snd q)) s /\ (forall k, In k (map fst s) -> In k (symbols d)) /\ NoDup (map fst s) /\
      forall w g, regular g d w -> (sol_holds s w <-> holds a w)) (clauses d) sols.
  Proof.
    intros d f sols G Hf Hs. unfold dnf_factor in Hf. apply mapM_Forall2 in Hs.
    assert (P1 : Forall2 (fun a c => filed (fun key e => keyed (self d) key e /\ True) c /\ (forall w, clause_holds c w <-> holds a w) /\
                   forall w g, regular g d w -> forall p, In p c -> exists g, regular g (snd p) w) (clauses d) f).
    { pose proof (dnf_factor_with_ok (self d) (fun _ => True) d f (mergeable_true _) G) as T.
      specialize (T ltac:(apply Forall_forall; auto) Hf).
      assert (Rg : forall w g, regular g d w -> Forall (fun c => forall p, In p c -> exists g, regular g (snd p) w) f).
      { intros w g R. pose proof (dnf_factor_with_ok (self d) (fun x => forall g, regular g x w) d f (mergeable_regular _ w) G) as U.
        assert (FR : Forall (fun x => forall g, regular g x w) (lits d)).
        { pose proof (ok_at_lits d g w G R) as O. eapply Forall_impl; [|exact O]. intros x (_ & _ & K); exact K. }
        specialize (U FR Hf). clear -U. induction U as [|a c la lf ((F & _) & _ & _) U IH]; constructor; auto.
        rewrite Forall_forall in F. intros p Hp. destruct (F p Hp) as (Gp & Lp). exists true. apply regular_lits; auto.
        eapply Forall_impl; [|exact Lp]. intros x (_ & K); auto. }
      clear -T Rg. induction T as [|a c la lf (A & B & _) T IH]; constructor.
      - split; auto. split; auto. intros w g R. specialize (Rg w g R). now inversion Rg.
      - apply IH. intros w g R. specialize (Rg w g R). now inversion Rg. }
    eapply Forall2_weaken; [|exact (Forall2_trans_ex _ _ _ _ _ _ _ _ P1 Hs)].
    intros a s (c & (Fc & Hc & Rc) & Sc). cbv beta in *. pose proof Fc as (Fl & Nd).
    destruct (solve_clause_ok d c s Fc Sc) as (W & Ks & Hw). split; auto. rewrite Ks. split; [|split; auto].
    - intros k Hk. apply in_map_iff in Hk. destruct Hk as (p & <- & Hp). rewrite Forall_forall in Fl. destruct (Fl p Hp) as (Gp & Lp).
      destruct (symbols_some (snd p) (proj1 Gp)) as (x & Hx).
      assert (Kp : keyed (self d) (fst p) (snd p)) by (apply keyed_lits; eapply Forall_impl; [|exact Lp]; intros y (K & _); exact K).
      apply Kp in Hx. apply lookup_self in Hx. destruct Hx as (-> & Hx). auto.
    - intros w g R. rewrite <- Hc. apply Hw. eauto.
  Qed.

  Lemma not_all_nonempty : forall s w, all_nonempty (N:=N) s = false -> ~ sol_holds s w.
  Proof.
    induction s as [|(k, v) s IH]; intros w H K; [discriminate|]. apply sol_holds_cons in K. destruct K as (K1 & K2).
    cbn [all_nonempty forallb snd] in H. destruct v; [destruct K1| |]; cbn [is_empty negb andb] in H; now apply (IH w).
  Qed.

  Theorem dnf_normalize_ok : forall e o, gev e -> dnf_normalize io po fuel e = Ok o ->
    match o with
    | Some d => gev d /\ is_dnf d /\ Forall (fun x => exists s, In s (symbols e) /\ lit_on s x) (lits d) /\
                forall w g, regular g e w -> (holds d w <-> holds e w)
    | None => forall w g, regular g e w -> ~ holds e w
    end.
  Proof.
    intros e o G H. destruct (dnf_normalize_cases e) as [(k & x & v & -> & K)|K]; rewrite K in H; clear K.
    - injection H as <-. split; auto. split; [left; now left|]. split; [|tauto]. cbn. constructor; auto. exists x. split; [now left|].
      unfold lit_on; eauto.
    - unfold normalize_general in H. inv_bind H. rename r into d. destruct (to_dnf_ok e G) as (d' & Hd & Gd & Dd & Hold).
      rewrite E in Hd. injection Hd as <-. inv_bind H. inv_bind H.
      pose proof (solutions_ok d _ _ Gd E0 E1) as S.
      assert (Rd : forall w g, regular g e w -> regular g d w).
      { intros w g R. apply regular_lits; auto. apply regular_lits in R; auto. rewrite Forall_forall in *. intros y Hy. apply R.
        eapply to_dnf_lits; eauto. }
      assert (Sy : forall x, In x (symbols d) -> In x (symbols e)).
      { intros y Hy. apply symbols_lits in Hy. destruct Hy as (l & H1 & H2). apply symbols_lits. exists l. split; auto. eapply to_dnf_lits; eauto. }
      assert (Hs : forall w g, regular g e w -> (holds e w <-> exists s, In s r0 /\ sol_holds s w)).
      { intros w g R. rewrite <- (proj1 (Hold w)), holds_clauses. symmetry.
        assert (S' : Forall2 (fun s a => holds a w <-> sol_holds s w) r0 (clauses d)).
        { clear -S Rd R. induction S as [|a s la ls (_ & _ & _ & K) S IH]; constructor; auto. symmetry. apply (K w g); auto. }
        rewrite (Forall2_ex _ _ (fun s => sol_holds s w) (fun a => holds a w) _ _ S'). reflexivity. }
      assert (Fs : forall s w, In s r0 /\ sol_holds s w <-> In s (filter all_nonempty r0) /\ sol_holds s w).
      { intros s w. rewrite filter_In. split; [|tauto]. intros (H1 & H2). split; auto. split; auto.
        destruct (all_nonempty s) eqn:En; auto. now apply not_all_nonempty with (w := w) in En. }
      assert (Sw : forall s, In s (filter all_nonempty r0) -> Forall (fun q => wf (snd q)) s /\ forall k, In k (map fst s) -> In k (symbols e)).
      { intros s Hin. apply filter_In in Hin. destruct Hin as (Hin & _). clear -S Hin Sy. induction S as [|a s' la ls (W & K & _) S IH]; [destruct Hin|].
        destruct Hin as [->|Hin]; auto. }
      remember (filter all_nonempty r0) as sl eqn:Esl. destruct sl as [|s0 sl].
      + injection H as <-. intros w g R Hw. apply (Hs w g R) in Hw. destruct Hw as (s & Hw). apply Fs in Hw. destruct Hw as ([] & _).
      + set (sl' := s0 :: sl) in *. inv_bind H. inv_bind H. inv_bind H. injection H as <-. apply mapM_Forall2 in E2.
        assert (C : Forall2 (fun s c => gev c /\ (forall w, holds c w <-> sol_holds s w) /\
                     Forall (fun x => exists s, In s (symbols e) /\ lit_on s x) (lits c)) (unseen [] sl') r1).
        { assert (U : Forall (fun s => In s sl') (unseen [] sl')) by (apply Forall_forall; intros s; apply unseen_incl).
          clear -E2 U Sw. induction E2 as [|s c ls lc E E2 IH]; constructor; inversion U as [|? ? Us Ul]; subst; auto.
          destruct (Sw s Us) as (W & K). destruct (conj_of_ok s c W E) as (A & B & D). split; auto. split; auto.
          eapply Forall_impl; [|exact D]. intros y (z & H1 & H2). exists z. auto. }
        assert (Gc : Forall gev r1) by (clear -C; induction C as [|? ? ? ? (K & _)]; constructor; auto).
        destruct (reduce_or io _ _ Gc E3) as (Gr & Hr).
        destruct (to_dnf_ok r2 Gr) as (d' & Hd' & Gd' & Dd' & Hold'). rewrite E4 in Hd'. injection Hd' as <-.
        split; auto. split; auto. split.
        * assert (L : Forall (fun x => exists s, In s (symbols e) /\ lit_on s x) (lits r2)).
          { apply (reduce_lits (ev_or io) _ r1); auto.
            - intros a b c. apply (lit_on_or (fun s => In s (symbols e))).
            - clear -C. induction C as [|? ? ? ? (_ & _ & K)]; constructor; auto. }
          rewrite Forall_forall in *. intros y Hy. apply L. apply (to_dnf_lits r2 r3); auto.
        * intros w g R. rewrite (proj1 (Hold' w)), Hr, (Hs w g R).
          assert (C' : Forall2 (fun s c => holds c w <-> sol_holds s w) (unseen [] sl') r1).
          { clear -C. induction C as [|? ? ? ? (_ & K & _)]; constructor; auto. }
          rewrite (Forall2_ex _ _ (fun s => sol_holds s w) (fun a => holds a w) _ _ C'). split.
          -- intros (s & H1 & H2). apply unseen_incl in H1. assert (Q : In s sl' /\ sol_holds s w) by auto. apply Fs in Q. eauto.
          -- intros (s & Q). apply Fs in Q. destruct (unseen_complete sl' [] w) as [K|(c & [] & _)]; eauto.
  Qed.
End Dnf.
