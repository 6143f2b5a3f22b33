(** Computations that use a memo table, and what the entries of the table must satisfy. *)
From Coq Require Import List Bool String Reals Lra Lia ZArith QArith Qreals FunctionalExtensionality Permutation.
From Verif Require Import Base Num Sets SetSpec SetIv SetProofs SetOr SetOps SetAlg SetBuilt
  Poly Trans TransSpec TransFacts PolyProofs InvProofs InvMain EvProofs ArithProofs
  Dnf DnfSpec DnfProofs DnfUnion Logs Spe SpeSpec SpeFacts SpeRect LeafProofs LeafEvents LeafCond SpeCons LeafGiven.
Import ListNotations.
Local Open Scope R_scope.

Lemma Forall2_in_l : forall A B (P : A -> B -> Prop) l m a, Forall2 P l m -> In a l -> exists b, In b m /\ P a b.
Proof.
  intros A B P l m a F. induction F as [|x y l m H F IH]; intros Ha; [destruct Ha|]. destruct Ha as [<-|Ha]; [exists y; simpl; auto|].
  destruct (IH Ha) as (b & H1 & H2). exists b. simpl; auto.
Qed.

Section Sat.
  Context {N : numsys} {S : logsys} {D : distsys N S}.
  Notation M := (M (N:=N) (D:=D)).
  Context (V : memo (D:=D) -> Prop).
  (** from a memo with property V the computation leaves one with property V and a result in Q *)
  Definition sat {A} (m : M A) (Q : A -> Prop) : Prop :=
    forall t, V t -> V (snd (m t)) /\ forall a, fst (m t) = Ok a -> Q a.
  Lemma sat_ret : forall A (a : A) (Q : A -> Prop), Q a -> sat (mret a) Q.
  Proof. intros A a Q H t Ht. split; auto. cbn. intros b E. injection E as <-. auto. Qed.
  Lemma sat_lift : forall A (r : res A) (Q : A -> Prop), (forall a, r = Ok a -> Q a) -> sat (lift r) Q.
  Proof. intros A r Q H t Ht. split; auto. Qed.
  Lemma sat_bind : forall A B (m : M A) (k : A -> M B) (P : A -> Prop) (Q : B -> Prop), sat m P -> (forall a, P a -> sat (k a) Q) -> sat (mbind m k) Q.
  Proof.
    intros A B m k P Q Hm Hk t Ht. destruct (Hm t Ht) as (H1 & H2). unfold mbind. destruct (m t) as [[a|e] t']; cbn [fst snd] in *.
    - apply (Hk a); auto.
    - split; auto. discriminate.
  Qed.
  Lemma sat_weaken : forall A (m : M A) (P Q : A -> Prop), sat m P -> (forall a, P a -> Q a) -> sat m Q.
  Proof. intros A m P Q H I t Ht. destruct (H t Ht) as (H1 & H2). split; auto. Qed.
  Lemma sat_mmap : forall A B (f : A -> M B) (P : A -> B -> Prop) l, (forall a, In a l -> sat (f a) (P a)) -> sat (mmap f l) (Forall2 P l).
  Proof.
    induction l as [|a l IH]; intros H; cbn [mmap].
    - apply sat_ret. constructor.
    - apply sat_bind with (P := P a); [apply H; now left|]. intros b Hb. apply sat_bind with (P := Forall2 P l); [apply IH; intros; apply H; now right|].
      intros bs Hbs. apply sat_ret. now constructor.
  Qed.
End Sat.

Section Factors.
  Context {N : numsys} (io : iterorder N).
  Notation tr := (tr N).
  Notation clause := (clause (N:=N)).
  Notation factor := (factor (N:=N)).
  Context (nominal : string -> bool).

  (** the literal constrains the variable; string sets constrain nominal variables only *)
  Definition lit_kind (key : string) (e : tr) : Prop := exists k v, e = EBasic k (TId key) v /\ (k = KNom -> nominal key = true).
  Lemma lit_kind_merge : mergeable io lit_kind.
  Proof.
    intros key k s v j t u r x (k1 & v1 & H1 & K1) _ G1 G2 _ Hp Ex. injection H1 as <- -> <-.
    destruct (event_of_set_shape _ _ _ Ex) as (k' & -> & Kn). exists k', r. split; auto. intros Hk. apply K1. apply Kn in Hk.
    apply gev_wf in G1, G2. destruct G1 as (_ & W1 & G1 & _), G2 as (_ & W2 & _ & _). destruct (pand_f io _ _ _ W1 W2 Hp) as (Wr & Fr & Rr & _).
    destruct k; auto; exfalso; assert (Rv : real_set v).
    - destruct G1 as (i & ->). exact I.
    - now apply Rr in Hk || (specialize (Rr (or_introl Rv)); clear -Hk Rr; destruct r as [|[]|]; simpl in *; tauto).
    - destruct G1 as [->|(vs & ->)]; exact I.
    - now apply Rr in Hk || (specialize (Rr (or_introl Rv)); clear -Hk Rr; destruct r as [|[]|]; simpl in *; tauto).
  Qed.
  Definition good_clause (c : clause) : Prop := filed lit_kind c.
  Definition good_factor (f : factor) : Prop := Forall good_clause f.

  Lemma teqb_holds : forall (e e' : tr) w, teqb e e' = true -> (holds e w <-> holds e' w).
  Proof. intros e e' w H. unfold holds. now rewrite (teqb_teval _ _ w H). Qed.
  Lemma clause_eqb_holds : forall (c d : clause) w, clause_eqb c d = true -> (clause_holds c w <-> clause_holds d w).
  Proof.
    unfold clause_eqb. induction c as [|(k, e) c IH]; intros [|(k', e') d] w H; try discriminate; [tauto|]. cbn [list_eqb fst snd] in H.
    apply andb_true_iff in H. destruct H as (H1 & H2). apply andb_true_iff in H1. destruct H1 as (_ & H1).
    rewrite !clause_holds_cons, (teqb_holds _ _ w H1), (IH _ w H2). tauto.
  Qed.
  Lemma factor_eqb_holds : forall (f g : factor) w, list_eqb clause_eqb f g = true -> (factor_holds f w <-> factor_holds g w).
  Proof.
    induction f as [|c f IH]; intros [|d g] w H; try discriminate; [tauto|]. cbn [list_eqb] in H. apply andb_true_iff in H. destruct H as (H1 & H2).
    specialize (IH _ w H2). pose proof (clause_eqb_holds _ _ w H1). unfold factor_holds in *. split; intros (x & [<-|Hx] & K).
    - exists d. simpl. tauto.
    - destruct IH as (IH & _). destruct IH as (y & Hy & Ky); eauto. exists y. simpl. auto.
    - exists c. simpl. tauto.
    - destruct IH as (_ & IH). destruct IH as (y & Hy & Ky); eauto. exists y. simpl. auto.
  Qed.
  Lemma find_key_in : forall K W (eqb : K -> K -> bool) k (l : list (K * W)) v, find_key eqb k l = Some v -> exists k', eqb k' k = true /\ In (k', v) l.
  Proof.
    induction l as [|(k', v') l IH]; intros v H; [discriminate|]. cbn [find_key] in H. destruct (eqb k' k) eqn:E.
    - injection H as ->. exists k'. simpl. auto.
    - destruct (IH _ H) as (k'' & ? & ?). exists k''. simpl. auto.
  Qed.

  (** literals about the given variables *)
  Definition lit_in (K : string -> Prop) (l : tr) : Prop := gev l /\ exists x, K x /\ lit_kind x l.
  Lemma lit_in_and : forall K a b c, ev_and io a b = Ok c -> Forall (lit_in K) (lits a) -> Forall (lit_in K) (lits b) -> Forall (lit_in K) (lits c).
  Proof.
    intros K a b c H. apply (ev_and_lits io _ a b c H). intros k s v j t u r x (G1 & x1 & K1 & L1) (G2 & x2 & K2 & L2) Et Hp Ex.
    pose proof (gev_wf _ _ _ G1) as (_ & W1 & _). pose proof (gev_wf _ _ _ G2) as (_ & W2 & _).
    destruct (pand_f io _ _ _ W1 W2 Hp) as (Wr & _). split; [now destruct (event_of_set_ok _ _ _ _ _ G1 Wr Ex)|]. exists x1. split; auto.
    apply (lit_kind_merge x1 k s v j t u r x); auto. destruct L1 as (k1 & v1 & E1 & _), L2 as (k2 & v2 & E2 & N2). injection E1 as -> -> ->. injection E2 as -> -> ->.
    cbn in Et. apply String.eqb_eq in Et. subst x2. exists k2, v2. auto.
  Qed.
  Lemma lit_in_or : forall K a b c, ev_or io a b = Ok c -> Forall (lit_in K) (lits a) -> Forall (lit_in K) (lits b) -> Forall (lit_in K) (lits c).
  Proof.
    intros K a b c H. apply (ev_or_lits io _ a b c H). intros k s v j t u r x (G1 & x1 & K1 & L1) (G2 & x2 & K2 & L2) Et Hp Ex.
    pose proof (gev_wf _ _ _ G1) as (_ & W1 & Q1 & _). pose proof (gev_wf _ _ _ G2) as (_ & W2 & Q2 & _).
    destruct (por_f io _ _ _ W1 W2 Hp) as (Wr & _ & Rr & _). split; [now destruct (event_of_set_ok _ _ _ _ _ G1 Wr Ex)|]. exists x1. split; auto.
    destruct L1 as (k1 & v1 & E1 & N1), L2 as (k2 & v2 & E2 & N2). injection E1 as <- -> <-. injection E2 as <- -> <-.
    cbn in Et. apply String.eqb_eq in Et. subst x2. destruct (event_of_set_shape _ _ _ Ex) as (l & -> & Kn). exists l, r. split; auto. intros Hl. apply Kn in Hl.
    destruct (ekind_eqb k KNom) eqn:Ek; [destruct k; try discriminate; auto|]. destruct (ekind_eqb j KNom) eqn:Ej; [destruct j; try discriminate; auto|].
    assert (Rv : real_set v) by (destruct k; try discriminate; [destruct Q1 as (i & ->)|destruct Q1 as [->|(vs & ->)]]; exact I).
    assert (Ru : real_set u) by (destruct j; try discriminate; [destruct Q2 as (i & ->)|destruct Q2 as [->|(vs & ->)]]; exact I).
    specialize (Rr Rv Ru). exfalso. clear -Hl Rr. destruct r as [|[]|]; simpl in *; tauto.
  Qed.
  Definition in_factor (f : factor) (x : string) : Prop := exists c, In c f /\ In x (map fst c).
  (** the event of a factor *)
  Lemma event_factor_ok : forall f e, good_factor f -> event_factor_to_event io f = Ok e ->
    gev e /\ (forall w, holds e w <-> factor_holds f w) /\ Forall (lit_in (in_factor f)) (lits e).
  Proof.
    intros f e G H. unfold event_factor_to_event in H. inv_bind H. apply mapM_Forall2 in E. unfold good_factor in G. rewrite Forall_forall in G.
    assert (K : forall c a, In c f -> reduceM (ev_and io) (map snd c) = Ok a -> gev a /\ (forall w, holds a w <-> clause_holds c w) /\ Forall (lit_in (in_factor f)) (lits a)).
    { intros c a Hc Ha. destruct (G c Hc) as (Fc & _).
      assert (Gc : Forall gev (map snd c)) by (rewrite Forall_map; eapply Forall_impl; [|exact Fc]; intros p (Gp & _); exact Gp).
      destruct (reduce_and io _ _ Gc Ha) as (Ga & Hh). split; auto. split.
      - intros w. rewrite Hh. unfold clause_holds. split; [intros K k x Hx; apply K; now apply (in_map snd) in Hx|].
        intros K x Hx. apply in_map_iff in Hx. destruct Hx as ((k, y) & <- & Hx). eauto.
      - apply (reduce_lits (ev_and io) (lit_in (in_factor f)) (map snd c)); auto; [intros x y z; apply lit_in_and|].
        rewrite Forall_map. rewrite Forall_forall in *. intros p Hp. destruct (Fc p Hp) as (Gp & Lp). pose proof (gev_lits _ Gp) as Gl. rewrite Forall_forall in *. intros l Hl.
        split; [now apply Gl|]. exists (fst p). split; [|auto]. exists c. split; auto. now apply in_map. }
    assert (Q : Forall2 (fun c a => In c f /\ gev a /\ (forall w, holds a w <-> clause_holds c w) /\ Forall (lit_in (in_factor f)) (lits a)) f r).
    { revert K. generalize (in_factor f). intros Kf K. clear -E K. induction E; constructor; [split; [now left|]; apply K; auto; now left|].
      eapply Forall2_weaken; [|apply IHE; intros; apply K; auto; now right]. intros a b (? & ?). split; auto. now right. }
    assert (Gr : Forall gev r) by (apply Forall_forall; intros a Ha; now destruct (Forall2_in_r _ _ _ _ _ _ Q Ha) as (c & _ & _ & ? & _)).
    destruct (reduce_or io _ _ Gr H) as (Ge & He). split; auto. split.
    - intros w. rewrite He. unfold factor_holds. split.
      + intros (a & Ha & Hw). destruct (Forall2_in_r _ _ _ _ _ _ Q Ha) as (c & Hc & _ & _ & Hh & _). exists c. split; auto. now apply Hh.
      + intros (c & Hc & Hw). destruct (Forall2_in_l _ _ _ _ _ _ Q Hc) as (a & Ha & _ & _ & Hh & _). exists a. split; auto. now apply Hh.
    - apply (reduce_lits (ev_or io) (lit_in (in_factor f)) r); auto; [intros x y z; apply lit_in_or|]. apply Forall_forall. intros a Ha. now destruct (Forall2_in_r _ _ _ _ _ _ Q Ha) as (c & _ & _ & _ & _ & ?).
  Qed.
  Lemma lit_in_on_vars : forall K e, Forall (lit_in K) (lits e) -> on_vars e.
  Proof. intros K e F. eapply Forall_impl; [|exact F]. intros l (_ & x & _ & k & v & -> & _). unfold on_var. eauto. Qed.
  Lemma lit_in_num : forall K e, Forall (lit_in K) (lits e) -> (forall x, In x (symbols e) -> nominal x = false) -> num_event e.
  Proof.
    intros K e F H. unfold num_event. rewrite Forall_forall in *. intros l Hl. destruct (F l Hl) as (_ & x & _ & k & v & -> & Hk). unfold num_lit.
    destruct k; auto. specialize (Hk eq_refl). rewrite H in Hk; [discriminate|]. apply symbols_lits. eexists. split; [exact Hl|]. simpl. auto.
  Qed.
End Factors.
