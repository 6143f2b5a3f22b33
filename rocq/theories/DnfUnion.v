(** Disjoint unions of events on variables: soundness, disjointness, and completeness on
    variables that keep their sort. *)
From Coq Require Import List Bool String Reals Lra Lia ZArith Classical.
From Verif Require Import Base Num Sets SetSpec SetIv SetProofs SetIvOr SetOr SetOps SetAlg SetBuilt
  Poly Trans TransSpec TransFacts PolyProofs InvProofs InvMain EvProofs ArithProofs Dnf DnfSpec DnfProofs.
Import ListNotations.

Section Union.
  Context {N : numsys} (io : iterorder N) (po : polyoracle N) (fuel : nat).
  Notation tr := (tr N).
  Notation pset := (pset N).
  Implicit Types (w : asg) (e : tr).

  Lemma on_vars_regular : forall e g w, gev e -> on_vars e -> regular g e w.
  Proof.
    intros e g w G O. apply regular_lits; auto. eapply Forall_impl; [|exact O]. intros x (k & y & v & ->). cbn. auto.
  Qed.
  Lemma lit_on_on_vars : forall e (P : string -> Prop), Forall (fun x => exists s, P s /\ lit_on s x) (lits e) -> on_vars e.
  Proof. intros e P F. eapply Forall_impl; [|exact F]. intros x (s & _ & k & v & ->). unfold on_var. eauto. Qed.

  (** ** Sorts of literals *)

  Variable nominal : string -> bool.
  (** sorted, or on the empty set *)
  Definition sv e : Prop := exists k x v, e = EBasic k (TId x) v /\ (v = PEmpty \/ (k = KNom <-> nominal x = true)).
  Lemma sorted_sv : forall e, sorted_lit nominal e -> sv e.
  Proof. intros e (k & x & v & -> & _ & H). exists k, x, v. auto. Qed.
  Lemma sv_sorted : forall k x v, sv (EBasic k (TId x) v) -> v <> PEmpty -> sorted_lit nominal (EBasic k (TId x) v).
  Proof. intros k x v (k' & x' & v' & H & S) Ne. injection H as <- <- <-. exists k, x, v. destruct S; tauto. Qed.

  Lemma kind_mem : forall k (t : tr) v y, gev (EBasic k t v) -> mem y v -> (k = KNom <-> exists s, y = RStr s).
  Proof.
    intros k t v y G M. apply gev_wf in G. destruct G as (_ & _ & G & _). destruct k.
    - destruct G as (i & ->). split; [discriminate|]. intros (s & ->). destruct M.
    - destruct G as [->|(vs & ->)]; [destruct M|]. split; [discriminate|]. intros (s & ->). destruct M.
    - destruct G as [->|G]; [destruct M|]. split; auto. intros _. destruct v as [|[]|]; try tauto. destruct y; [destruct M|eauto].
  Qed.

  Lemma merge_and_sv : forall k s v j t u r x, sv (EBasic k s v) -> gev (EBasic k s v) -> gev (EBasic j t u) ->
    pand io v u = Ok r -> event_of_set s r = Some x -> gev x /\ sv x.
  Proof.
    intros k s v j t u r x (k' & z & v' & H & S) G1 G2 Hp Ex. injection H as <- -> <-.
    pose proof (gev_wf _ _ _ G1) as (_ & W1 & _). pose proof (gev_wf _ _ _ G2) as (_ & W2 & _).
    destruct (pand_f io _ _ _ W1 W2 Hp) as (Wr & _ & _ & M). destruct (event_of_set_ok _ _ _ _ _ G1 Wr Ex) as (Gx & _). split; auto.
    destruct (event_of_set_shape _ _ _ Ex) as (l & -> & _). exists l, z, r. split; auto.
    destruct (classic (r = PEmpty)) as [->|Ne]; auto. right. destruct (nonempty_mem r Wr Ne) as (y & Hy).
    rewrite (kind_mem _ _ _ _ Gx Hy). apply M in Hy. destruct Hy as (Hy & _). rewrite <- (kind_mem _ _ _ _ G1 Hy).
    destruct S as [->|S]; [destruct Hy|auto].
  Qed.
  Lemma merge_or_sv : forall k s v j t u r x, sv (EBasic k s v) -> sv (EBasic j t u) -> teqb t s = true ->
    gev (EBasic k s v) -> gev (EBasic j t u) ->
    por io v u = Ok r -> event_of_set s r = Some x -> gev x /\ sv x.
  Proof.
    intros k s v j t u r x (k' & z & v' & H & S) (j' & z' & u' & H' & S') Et G1 G2 Hp Ex. injection H as <- -> <-. injection H' as <- -> <-.
    cbn in Et. apply String.eqb_eq in Et. subst z'.
    pose proof (gev_wf _ _ _ G1) as (_ & W1 & _). pose proof (gev_wf _ _ _ G2) as (_ & W2 & _).
    destruct (por_f io _ _ _ W1 W2 Hp) as (Wr & _ & _ & M). destruct (event_of_set_ok _ _ _ _ _ G1 Wr Ex) as (Gx & _). split; auto.
    destruct (event_of_set_shape _ _ _ Ex) as (l & -> & _). exists l, z, r. split; auto.
    destruct (classic (r = PEmpty)) as [->|Ne]; auto. right. destruct (nonempty_mem r Wr Ne) as (y & Hy).
    rewrite (kind_mem _ _ _ _ Gx Hy). apply M in Hy. destruct Hy as [Hy|Hy].
    - rewrite <- (kind_mem _ _ _ _ G1 Hy). destruct S as [->|S]; [destruct Hy|auto].
    - rewrite <- (kind_mem _ _ _ _ G2 Hy). destruct S' as [->|S']; [destruct Hy|auto].
  Qed.

  Definition good_sv e : Prop := gev e /\ sv e.
  Definition good_sorted e : Prop := gev e /\ sorted_lit nominal e.
  Lemma and_sv : forall a b c, ev_and io a b = Ok c -> Forall good_sv (lits a) -> Forall good_sv (lits b) -> Forall good_sv (lits c).
  Proof.
    intros a b c H. apply (ev_and_lits io _ a b c H). intros k s v j t u r x (G1 & S1) (G2 & S2) Et Hp Ex.
    apply (merge_and_sv k s v j t u r); auto.
  Qed.
  Lemma or_sv : forall a b c, ev_or io a b = Ok c -> Forall good_sv (lits a) -> Forall good_sv (lits b) -> Forall good_sv (lits c).
  Proof.
    intros a b c H. apply (ev_or_lits io _ a b c H). intros k s v j t u r x (G1 & S1) (G2 & S2) Et Hp Ex.
    apply (merge_or_sv k s v j t u r); auto.
  Qed.
  Lemma or_sorted : forall a b c, ev_or io a b = Ok c -> Forall good_sorted (lits a) -> Forall good_sorted (lits b) -> Forall good_sorted (lits c).
  Proof.
    intros a b c H. apply (ev_or_lits io _ a b c H). intros k s v j t u r x (G1 & S1) (G2 & S2) Et Hp Ex.
    destruct (merge_or_sv k s v j t u r x) as (Gx & Sx); auto using sorted_sv. split; auto.
    destruct (event_of_set_shape _ _ _ Ex) as (l & -> & _). destruct S1 as (k1 & z & v1 & H1 & Ne & _). injection H1 as -> -> ->.
    apply sv_sorted; auto. intros ->.
    pose proof (gev_wf _ _ _ G1) as (_ & W1 & _). pose proof (gev_wf _ _ _ G2) as (_ & W2 & _).
    apply por_spec in Hp; auto. destruct Hp as (_ & _ & _ & _ & K). now apply Ne, K.
  Qed.

  Lemma sorted_gev : forall e, gev e -> sorted nominal e -> Forall good_sorted (lits e).
  Proof.
    intros e G S. pose proof (gev_lits e G) as L. unfold sorted in S. rewrite Forall_forall in *. intros x Hx. split; [apply L|]; auto.
  Qed.
  Lemma gev_sv_list : forall e, gev e -> Forall sv (lits e) -> Forall good_sv (lits e).
  Proof.
    intros e G S. pose proof (gev_lits e G) as L. rewrite Forall_forall in *. intros x Hx. split; [apply L|]; auto.
  Qed.

  Lemma not_sv : forall e n, gev e -> Forall good_sorted (lits e) -> ev_not io e = Ok n -> Forall good_sv (lits n).
  Proof.
    induction e using tr_ind'; intros n G F H'; cbn [ev_not] in H'; try discriminate.
    - pose proof (inv_basic_ok io _ _ _ _ G H') as (Gn & _). apply gev_sv_list; auto. inversion F as [|? ? (_ & S) _]; subst.
      destruct S as (k1 & x & v1 & H1 & Ne & S). injection H1 as <- -> <-.
      unfold inv_basic in H'. inv_bind H'. destruct k.
      + assert (nominal x <> true) by (intros K; apply S in K; discriminate).
        assert (L : forall v, sv (EBasic KInt (TId x) v)).
        { intros v0. exists KInt, x, v0. split; [reflexivity|]. right. split; [discriminate|tauto]. }
        destruct r as [|[]|[|a [|b [|]]]]; try discriminate.
        * injection H' as <-. cbn. constructor; auto. exists KReal, x, PEmpty. auto.
        * injection H' as <-. cbn. constructor; auto.
        * inv_bind H'. inv_bind H'. apply EventOr_shape in H'. subst n. destruct a; try discriminate. destruct b; try discriminate.
          injection E0 as <-. injection E1 as <-. cbn. auto.
      + assert (nominal x <> true) by (intros K; apply S in K; discriminate).
        assert (L : forall v, sv (EBasic KInt (TId x) v)).
        { intros v0. exists KInt, x, v0. split; [reflexivity|]. right. split; [discriminate|tauto]. }
        destruct (peqb r Reals); [injection H' as <-; cbn; auto|]. destruct r as [| |args]; try discriminate.
        inv_bind H'. apply EventOr_shape in H'. subst n. cbn [lits]. apply mapM_Forall2 in E0. apply lits_list.
        clear -E0 L. induction E0 as [|a y l m H E IH]; constructor; auto. destruct a; try discriminate. injection H as <-. cbn. auto.
      + assert (E1 : n = EBasic KNom (TId x) r) by (destruct r as [|[]|]; try discriminate; now injection H' as <-).
        subst n. cbn. constructor; auto. exists KNom, x, r. auto.
    - inv_bind H'. apply gev_or in G. destruct G as (_ & G). cbn [lits] in F. apply lits_list in F. apply mapM_Forall2 in E.
      apply (reduce_lits (ev_and io) good_sv r n); auto; [apply and_sv|]. clear H'.
      revert H G F. induction E; intros Hl G F; constructor; inversion Hl; inversion G; inversion F; subst; auto.
    - inv_bind H'. apply gev_and in G. destruct G as (_ & G). cbn [lits] in F. apply lits_list in F. apply mapM_Forall2 in E.
      apply (reduce_lits (ev_or io) good_sv r n); auto; [apply or_sv|]. clear H'.
      revert H G F. induction E; intros Hl G F; constructor; inversion Hl; inversion G; inversion F; subst; auto.
  Qed.

  (** ** Sorted events have a truth value at sorted assignments *)
  Lemma sorted_defined : forall e w, gev e -> sorted nominal e -> sorted_asg nominal w -> holds e w \/ fails e w.
  Proof.
    intros e w. induction e using tr_ind'; intros G S Sw; try (destruct G; discriminate).
    - inversion S as [|? ? (k1 & x & v1 & H1 & _ & K) _]; subst. injection H1 as <- -> <-. unfold holds, fails. cbn.
      specialize (Sw x). destruct (w x) as [r|s]; destruct k; try (destruct K; intuition congruence);
        unfold truth; destruct (dec _); auto.
    - apply gev_or in G. destruct G as (_ & G). unfold sorted in *. cbn [lits] in S. apply lits_list in S. rewrite holds_or, fails_or.
      rewrite Forall_forall in *. destruct (classic (exists x, In x l /\ holds x w)); auto. right. intros x Hx.
      destruct (H x Hx) as [K|K]; auto. exfalso. eauto.
    - apply gev_and in G. destruct G as (_ & G). unfold sorted in *. cbn [lits] in S. apply lits_list in S. rewrite holds_and, fails_and.
      rewrite Forall_forall in *. destruct (classic (exists x, In x l /\ fails x w)); auto. left. intros x Hx.
      destruct (H x Hx) as [K|K]; auto. exfalso. eauto.
  Qed.

  (** ** Normalising sorted events *)

  Lemma gev_not_union : forall k (t : tr) u, gev (EBasic k t (PUnion u)) -> False.
  Proof.
    intros k t u G. apply gev_wf in G. destruct G as (_ & _ & G & _). destruct k; [destruct G; discriminate| |].
    - destruct G as [G|(vs & G)]; discriminate.
    - destruct G as [G|G]; [discriminate|exact G].
  Qed.
  (** conjunctions of literals on one variable are literals *)
  Lemma and_lit_on : forall x a b c, gev a -> gev b -> lit_on x a -> lit_on x b -> ev_and io a b = Ok c -> lit_on x c.
  Proof.
    intros x a b c Ga Gb (k & v & ->) (j & u & ->) H. cbn [ev_and teqb] in H. rewrite String.eqb_refl in H. inv_bind H.
    destruct (event_of_set (TId x) r) as [y|] eqn:Ey.
    - injection H as <-. destruct (event_of_set_shape _ _ _ Ey) as (l & -> & _). unfold lit_on. eauto.
    - exfalso. destruct r as [|[]|args]; try discriminate Ey.
      pose proof (gev_wf _ _ _ Ga) as (_ & W1 & K1 & _). pose proof (gev_wf _ _ _ Gb) as (_ & W2 & K2 & _).
      destruct v as [|b1|a1]; [discriminate| |].
      + destruct u as [|b2|a2]; [discriminate| |].
        * destruct (and_bb_ok b1 b2 W1 W2) as (r & H1 & _ & H2). cbn [pand] in E. rewrite H1 in E. injection E as ->. exact H2.
        * now apply gev_not_union in Gb.
      + now apply gev_not_union in Ga.
  Qed.

  Definition entry (p : string * tr) : Prop := gev (snd p) /\ lit_on (fst p) (snd p) /\ sv (snd p).
  Lemma add_key_entry : forall c key ev c', Forall entry c -> entry (key, ev) -> add_key io c key ev = Ok c' -> Forall entry c'.
  Proof.
    induction c as [|(k, e) c IH]; intros key ev c' F E H; cbn [add_key] in H.
    - injection H as <-. auto.
    - inversion F as [|? ? (Ge & Le & Se) Fc]; subst. cbn [fst snd] in *. destruct E as (Gv & Lv & Sv). cbn [fst snd] in *.
      destruct (String.eqb key k) eqn:Ek.
      + apply String.eqb_eq in Ek. subst k. inv_bind H. injection H as <-. constructor; auto.
        destruct (ev_and_ok io _ _ _ Ge Gv E) as (Gr & _). pose proof (and_lit_on _ _ _ _ Ge Gv Le Lv E) as Lr. split; auto. split; auto.
        destruct Le as (k1 & v1 & ->), Lv as (k2 & v2 & ->). assert (S : Forall good_sv (lits r)).
        { apply (and_sv _ _ _ E); cbn; constructor; auto; split; auto. }
        destruct Lr as (k3 & v3 & ->). cbn in S. inversion S as [|? ? Kr Kn]; subst. exact (proj2 Kr).
      + inv_bind H. injection H as <-. constructor; [split; auto|]. eapply IH; eauto. split; auto.
  Qed.
  Lemma factor_lit_entry : forall lk e ke, (forall s k, lookup s lk = Some k -> k = s) -> gev e -> sv e -> factor_lit lk e = Ok ke -> entry ke.
  Proof.
    intros lk e (k, x) Lk G S H. unfold factor_lit in H. pose proof S as (k1 & y & v & -> & _). cbn [symbols] in H.
    destruct (lookup y lk) as [z|] eqn:El; [|discriminate]. injection H as <- <-. apply Lk in El. subst z. split; auto. split; auto.
    cbn. unfold lit_on. eauto.
  Qed.
  Lemma factor_entries : forall e f, gev e -> Forall sv (lits e) -> dnf_factor io e = Ok f -> Forall (Forall entry) f.
  Proof.
    intros e f G S H. unfold dnf_factor in H.
    assert (Lk : forall s k, lookup s (map (fun s => (s, s)) (symbols e)) = Some k -> k = s) by (intros s k K; apply lookup_self in K; tauto).
    revert H Lk. generalize (map (fun s => (s, s)) (symbols e)) as lk. intros lk H Lk.
    assert (Cl : forall a c, gev a -> Forall sv (lits a) -> factor_clause io lk a = Ok c -> Forall entry c).
    { clear e f G S H. intros a c G S H. destruct a; try discriminate; cbn [factor_clause] in H.
      - inv_bind H. injection H as <-. constructor; auto. inversion S; subst. eapply factor_lit_entry; eauto.
      - unfold factor_and in H. inv_bind H. apply passert_Ok in E. apply gev_and in G. destruct G as (_ & G). cbn [lits] in S. apply lits_list in S.
        assert (F0 : Forall entry []) by constructor. revert F0 H. generalize (@nil (string * tr)) as c0. revert E.
        induction l as [|x l IH]; intros Bl c0 F0 H; cbn [foldM] in H; [now injection H as <-|].
        inversion G; inversion S; subst. cbn [forallb] in Bl. apply andb_true_iff in Bl. destruct Bl as (Bx & Bl). inv_bind H. inv_bind E.
        apply IH in H; auto. eapply add_key_entry; [exact F0| |exact E]. destruct r1 as (k0, y0). cbn [fst snd].
        eapply factor_lit_entry; eauto. destruct x; try discriminate. now inversion H6. }
    destruct e; try discriminate; cbn [dnf_factor_with] in H.
    - inv_bind H. injection H as <-. constructor; auto. eapply Cl; eauto.
    - inv_bind H. apply gev_or in G. destruct G as (_ & G). cbn [lits] in S. apply lits_list in S. apply mapM_Forall2 in H. clear E.
      induction H; constructor; inversion G; inversion S; subst; auto. eapply Cl; eauto.
    - inv_bind H. injection H as <-. constructor; auto. eapply Cl; eauto.
  Qed.

  (** a conjunction of literals on distinct variables keeps them as they are *)
  Lemma and_distinct : forall l ks s e, foldM (ev_and io) l s = Ok e ->
    Forall2 (fun k y => lit_on k y) ks l -> NoDup ks ->
    (exists k, lit_on k s /\ ~ In k ks) \/ (exists m, s = EAnd m) ->
    lits e = lits s ++ l.
  Proof.
    intros l ks s e H F. revert s H. induction F as [|k y ks l Ly F IH]; intros s H Nd Sh; cbn [foldM] in H.
    - injection H as <-. now rewrite app_nil_r.
    - inv_bind H. inversion Nd as [|? ? Nk Nd']; subst.
      assert (K : lits r = lits s ++ [y] /\ exists m, r = EAnd m).
      { destruct Ly as (ky & vy & ->). destruct Sh as [(k' & (ks' & vs & ->) & Ni)|(m & ->)]; cbn [ev_and teqb] in E.
        - destruct (String.eqb k k') eqn:Ek; [apply String.eqb_eq in Ek; subst; exfalso; apply Ni; now left|].
          apply EventAnd_shape in E. subst r. split; [reflexivity|eauto].
        - apply EventAnd_shape in E. subst r. cbn [lits]. rewrite map_app, concat_app. cbn. split; [reflexivity|eauto]. }
      destruct K as (K1 & K2). rewrite (IH r H Nd' (or_intror K2)), K1, <- app_assoc. reflexivity.
  Qed.
  Lemma conj_of_lits : forall c e, NoDup (map fst c) -> conj_of io c = Ok e ->
    Forall (fun p => exists k, gev (EBasic k (TId (fst p)) (snd p))) c ->
    Forall (fun x => exists p k, In p c /\ x = EBasic k (TId (fst p)) (snd p)) (lits e).
  Proof.
    intros c e Nd H F. unfold conj_of in H. inv_bind H. apply mapM_Forall2 in E.
    assert (F2 : Forall2 (fun p y => exists k, y = EBasic k (TId (fst p)) (snd p)) c r).
    { clear H Nd. induction E as [|(x, v) y c r H E IH]; constructor; inversion F as [|? ? (k & G) F']; subst; auto. cbn [fst snd] in *.
      destruct v as [|[]|u]; try (injection H as <-; eauto). now apply gev_not_union in G. }
    destruct c as [|p c]; [inversion F2; subst; discriminate|]. inversion F2 as [|? y ? l (k & ->) F2']; subst. cbn [reduceM] in H.
    cbn [map] in Nd. inversion Nd as [|? ? Nk Nd']; subst.
    apply and_distinct with (ks := map fst c) in H; auto.
    - rewrite H. cbn [lits]. constructor; [exists p, k; split; [now left|auto]|].
      assert (K : forall c0, incl c c0 -> Forall (fun x => exists q j, In q c0 /\ x = EBasic j (TId (fst q)) (snd q)) l).
      { clear -F2'. intros c0 I. induction F2' as [|q y c l (j & ->) F IH]; constructor.
        - exists q, j. split; auto. apply I. now left.
        - apply IH. intros z Hz. apply I. now right. }
      apply K. intros z Hz. now right.
    - clear -F2'. induction F2' as [|q y c l (j & ->) F IH]; constructor; auto. unfold lit_on. eauto.
    - left. exists (fst p). split; auto. unfold lit_on. eauto.
  Qed.

  Lemma normalize_sorted : forall e d, gev e -> Forall sv (lits e) -> dnf_normalize io po fuel e = Ok (Some d) ->
    sorted nominal d \/ is_basic d = true.
  Proof.
    intros e d G S H. destruct (dnf_normalize_cases io po fuel e) as [(k & x & v & -> & K)|K]; rewrite K in H; clear K.
    - injection H as <-. auto.
    - left. unfold normalize_general in H. inv_bind H. rename r into e'. destruct (to_dnf_ok e G) as (d' & Hd & Gd & Dd & _).
      rewrite E in Hd. injection Hd as <-. inv_bind H. inv_bind H.
      assert (S' : Forall sv (lits e')).
      { rewrite Forall_forall in *. intros y Hy. apply S. eapply to_dnf_lits; eauto. }
      pose proof (factor_entries e' r Gd S' E0) as Fe. pose proof (solutions_ok io po fuel e' _ _ Gd E0 E1) as So. apply mapM_Forall2 in E1.
      (* the solutions are the sets of the literals *)
      assert (Q : Forall (fun s => Forall (fun p => exists k, good_sv (EBasic k (TId (fst p)) (snd p))) s /\ NoDup (map fst s)) r0).
      { apply Forall_forall. intros s Hs. split.
        - clear -E1 Fe Hs. induction E1 as [|c s' f r0 H E IH]; [destruct Hs|]. inversion Fe as [|? ? Fc Ff]; subst. destruct Hs as [->|Hs]; auto.
          apply solve_clause_shape in H. clear -H Fc. induction H as [|(k, x) (k', v) c s (H1 & H2) H IH]; constructor; inversion Fc as [|? ? (Gx & (j & u & Lx) & Sx) Fc']; subst; auto.
          cbn [fst snd] in *. subst. cbn in H2. injection H2 as <-. exists j. split; auto.
        - clear -So Hs. induction So as [|a s' la ls (_ & _ & Nd & _) So IH]; [destruct Hs|]. destruct Hs as [->|Hs]; auto. }
      assert (Q' : forall s, In s (filter all_nonempty r0) -> NoDup (map fst s) /\ Forall (fun p => wf (snd p)) s /\
                    Forall (fun p => exists k, gev (EBasic k (TId (fst p)) (snd p))) s /\
                    forall p k, In p s -> gev (EBasic k (TId (fst p)) (snd p)) -> sorted_lit nominal (EBasic k (TId (fst p)) (snd p))).
      { intros s Hs. apply filter_In in Hs. destruct Hs as (Hs & Ne). rewrite Forall_forall in Q. destruct (Q s Hs) as (Q1 & Q2). split; auto. split; [|split].
        - eapply Forall_impl; [|exact Q1]. intros p (k & Gp & _). apply gev_wf in Gp. tauto.
        - eapply Forall_impl; [|exact Q1]. intros p (k & Gp & _). eauto.
        - intros p k Hp Gk. rewrite Forall_forall in Q1. destruct (Q1 p Hp) as (j & Gj & Sj).
          unfold all_nonempty in Ne. rewrite forallb_forall in Ne. specialize (Ne p Hp).
          assert (Nv : snd p <> PEmpty) by (intros K; rewrite K in Ne; discriminate).
          apply sv_sorted in Sj; auto. destruct Sj as (k1 & x1 & v1 & H1 & _ & Sj). injection H1 as <- <- <-.
          exists k, (fst p), (snd p). split; auto. split; auto. rewrite <- Sj.
          pose proof (gev_wf _ _ _ Gk) as (_ & W & _). destruct (nonempty_mem _ W Nv) as (y & Hy).
          rewrite (kind_mem _ _ _ _ Gj Hy). exact (kind_mem _ _ _ _ Gk Hy). }
      remember (filter all_nonempty r0) as sl eqn:Esl. destruct sl as [|s0 sl]; [discriminate|]. set (sl' := s0 :: sl) in *.
      inv_bind H. inv_bind H. inv_bind H. injection H as <-. apply mapM_Forall2 in E2.
      assert (C : Forall (fun c => gev c /\ Forall good_sorted (lits c)) r1).
      { assert (U : Forall (fun s => In s sl') (unseen [] sl')) by (apply Forall_forall; intros s; apply unseen_incl).
        clear -E2 U Q'. induction E2 as [|s c ls lc E E2 IH]; constructor; inversion U as [|? ? Us Ul]; subst; auto.
        destruct (Q' s Us) as (Nd & W & Gp & Sp). destruct (conj_of_ok io s c W E) as (A & _ & _). split; auto.
        pose proof (conj_of_lits s c Nd E Gp) as L. pose proof (gev_lits c A) as Lg. rewrite Forall_forall in *. intros y Hy.
        destruct (L y Hy) as (p & k & Hp & ->). destruct (Lg _ Hy) as (Gy & _). split; auto. }
      assert (L : Forall good_sorted (lits r2)).
      { apply (reduce_lits (ev_or io) good_sorted r1 r2); auto; [apply or_sorted|]. eapply Forall_impl; [|exact C]. intros y (_ & K); exact K. }
      assert (Gr : gev r2).
      { apply reduce_or with (io := io) (l := r1); auto. eapply Forall_impl; [|exact C]. intros y (K & _); exact K. }
      unfold sorted. rewrite Forall_forall in *. intros y Hy. apply L. eapply to_dnf_lits; eauto.
  Qed.

  (** ** Overlapping clauses *)

  Lemma overlap_any_ok : forall ci cj b, Forall (fun q => wf (snd q)) ci -> Forall (fun q => wf (snd q)) cj ->
    overlap_any io ci cj = Ok b -> b = true -> forall w, ~ (sol_holds ci w /\ sol_holds cj w).
  Proof.
    induction ci as [|(s, v) ci IH]; intros cj b Wi Wj H Hb w (Hi & Hj); cbn [overlap_any] in H; [congruence|].
    inv_bind H. apply sol_holds_cons in Hi. destruct Hi as (Hv & Hi). inversion Wi; subst.
    destruct (is_empty r) eqn:Er.
    - destruct r; try discriminate. destruct (lookup s cj) as [u|] eqn:El.
      + assert (In (s, u) cj).
        { clear -El. induction cj as [|(y, z) cj IH]; simpl in El; [discriminate|]. destruct (String.eqb s y) eqn:E; [|right; auto].
          apply String.eqb_eq in E. injection El as ->. left. now subst. }
        rewrite Forall_forall in Wj. pose proof (Wj _ H0) as Wu. apply pand_f in E; auto. destruct E as (_ & E & _).
        apply (E (w s)). split; auto.
      + injection E as ->. exact Hv.
    - eapply (IH cj true); eauto.
  Qed.

  (** each clause with the earlier ones it overlaps *)
  Inductive table : list tr -> list tr -> list (tr * list tr) -> Prop :=
  | table_nil : forall pre, table pre [] []
  | table_cons : forall pre e o l t, (forall x, In x o -> In x pre) -> (forall x, In x pre -> In x o \/ never_both x e) ->
      table (pre ++ [e]) l t -> table pre (e :: l) ((e, o) :: t).

  Definition exact_sol (p : list (string * pset) * tr) : Prop :=
    Forall (fun q => wf (snd q)) (fst p) /\ forall w, sol_holds (fst p) w <-> holds (snd p) w.
  Lemma overlaps_ok : forall earlier cj e o, Forall exact_sol earlier -> exact_sol (cj, e) -> overlaps io earlier cj = Ok o ->
    (forall x, In x o -> In x (map snd earlier)) /\ (forall x, In x (map snd earlier) -> In x o \/ never_both x e).
  Proof.
    induction earlier as [|(ci, a) earlier IH]; intros cj e o F Ej H; cbn [overlaps] in H; [injection H as <-; simpl; tauto|].
    inversion F as [|? ? (Wi & Hi) F']; subst. cbn [fst snd] in *. inv_bind H. inv_bind H. destruct (IH _ _ _ F' Ej E0) as (A & B).
    destruct Ej as (Wj & Hj). cbn [fst snd] in *.
    assert (K : r = true -> never_both a e).
    { intros Hr w (K1 & K2). apply (overlap_any_ok _ _ _ Wi Wj E Hr w). rewrite Hi, Hj. auto. }
    destruct r; injection H as <-; split.
    - intros x Hx. right. auto.
    - intros x [<-|Hx]; auto.
    - intros x [<-|Hx]; [now left|right; auto].
    - intros x [<-|Hx]; [left; now left|]. destruct (B x Hx); auto. left. now right.
  Qed.
  Lemma overlap_table_ok : forall l earlier t, Forall exact_sol earlier -> Forall exact_sol l -> overlap_table io earlier l = Ok t ->
    table (map snd earlier) (map snd l) t.
  Proof.
    induction l as [|(c, e) l IH]; intros earlier t F Fl H; cbn [overlap_table] in H; [injection H as <-; constructor|].
    inversion Fl; subst. inv_bind H. inv_bind H. injection H as <-. destruct (overlaps_ok _ _ _ _ F H2 E) as (A & B).
    constructor; auto. apply IH in E0; auto; [|apply Forall_app; auto]. rewrite map_app in E0. exact E0.
  Qed.
  Lemma non_disjoint_ok : forall l t, gev (EOr l) -> on_vars (EOr l) -> non_disjoint io po fuel l = Ok t -> table [] l t.
  Proof.
    intros l t G O H. unfold non_disjoint in H. inv_bind H. inv_bind H. pose proof (solutions_ok io po fuel (EOr l) _ _ G E E0) as S.
    cbn [clauses] in S.
    assert (Ex : Forall exact_sol (combine r0 l) /\ map snd (combine r0 l) = l).
    { assert (R : forall w, regular true (EOr l) w) by (intros w; now apply on_vars_regular). clear -S R. revert S R. generalize (EOr l) as e.
      intros e0 S R. induction S as [|a s la ls (W & _ & _ & K) S IH]; simpl; [split; [constructor|auto]|]. destruct IH as (A & B). split; [|now f_equal].
      constructor; auto. split; auto. cbn [fst snd]. intros w. apply (K w true). auto. }
    destruct Ex as (Ex & Em). apply overlap_table_ok in H; auto. now rewrite Em in H.
  Qed.

  (** ** Differences *)

  Lemma cascade_ok : forall p c, gev (fst p) -> Forall gev (snd p) -> cascade io p = Ok c ->
    gev c /\ forall w, holds c w <-> holds (fst p) w /\ forall x, In x (snd p) -> fails x w.
  Proof.
    intros (e, o) c. cbn [cascade fst snd]. unfold cascade. cbn [fst snd]. intros G F. revert e G. induction F as [|x o Gx F IH]; intros e G H; cbn [foldM] in H.
    - injection H as <-. split; auto. intros w. simpl. tauto.
    - inv_bind H. inv_bind E. destruct (ev_not_ok io _ _ Gx E0) as (Gn & Hn). destruct (ev_and_ok io _ _ _ G Gn E) as (Gr & Hr).
      destruct (IH r Gr H) as (Gc & Hc). split; auto. intros w. rewrite Hc, Hr, Hn. simpl. split.
      + intros ((H1 & H2) & H3). split; auto. intros y [<-|Hy]; auto.
      + intros (H1 & H2). auto.
  Qed.
  Lemma cascade_sv : forall p c, gev (fst p) -> Forall gev (snd p) -> sorted nominal (fst p) -> Forall (sorted nominal) (snd p) ->
    cascade io p = Ok c -> Forall sv (lits c).
  Proof.
    intros (e, o) c. unfold cascade. cbn [fst snd]. intros G F S So H.
    assert (K : Forall good_sv (lits c)).
    { assert (Se : Forall good_sv (lits e)).
      { apply gev_sv_list; auto. eapply Forall_impl; [|exact S]. intros x. apply sorted_sv. }
      clear S G. revert e Se H. induction F as [|x o Gx F IH]; intros e Se H; cbn [foldM] in H; [now injection H as <-|].
      inversion So; subst. inv_bind H. inv_bind E. apply (IH H3 r); auto. apply (and_sv _ _ _ E); auto.
      apply (not_sv x r0); auto. now apply sorted_gev. }
    eapply Forall_impl; [|exact K]. intros x (_ & Kx); exact Kx.
  Qed.
  Lemma Forall2_in_r : forall A B (P : A -> B -> Prop) l m b, Forall2 P l m -> In b m -> exists a, In a l /\ P a b.
  Proof.
    intros A B P l m b F. induction F; intros H0; [destruct H0|]. destruct H0 as [<-|H0]; [exists x; simpl; auto|].
    destruct (IHF H0) as (a & H1 & H2). exists a. simpl; auto.
  Qed.
  Lemma not_on_vars : forall e n, ev_not io e = Ok n -> on_vars e -> on_vars n /\ forall x, In x (symbols n) -> In x (symbols e).
  Proof.
    assert (B : forall k x v n, inv_basic io k (TId x) v = Ok n -> Forall (lit_on x) (lits n)).
    { intros k x v n H. unfold inv_basic in H. inv_bind H. destruct k.
      - destruct r as [|[]|[|a [|b [|]]]]; try discriminate; try (injection H as <-; cbn; constructor; auto; unfold lit_on; eauto).
        inv_bind H. inv_bind H. apply EventOr_shape in H. subst n. destruct a; try discriminate. destruct b; try discriminate.
        injection E0 as <-. injection E1 as <-. cbn. constructor; [|constructor; [|constructor]]; unfold lit_on; eauto.
      - destruct (peqb r Reals); [injection H as <-; cbn; constructor; auto; unfold lit_on; eauto|]. destruct r as [| |args]; try discriminate.
        inv_bind H. apply EventOr_shape in H. subst n. cbn [lits]. apply mapM_Forall2 in E0. apply lits_list.
        clear -E0. induction E0 as [|a y l m H E IH]; constructor; auto. destruct a; try discriminate. injection H as <-. cbn. constructor; auto. unfold lit_on. eauto.
      - destruct r as [|[]|]; try discriminate; injection H as <-; cbn; constructor; auto; unfold lit_on; eauto. }
    intros e n H O. assert (K : Forall (fun y => exists x, In x (symbols e) /\ lit_on x y) (lits n)).
    { revert n H O. induction e using tr_ind'; intros n H' O; cbn [ev_not] in H'; try discriminate.
      - inversion O as [|? ? (k1 & x & v1 & H1) _]; subst. injection H1 as <- -> <-. apply B in H'. eapply Forall_impl; [|exact H'].
        intros y Ly. exists x. split; auto. now left.
      - inv_bind H'. unfold on_vars in O. cbn [lits] in O. apply lits_list in O. apply mapM_Forall2 in E.
        eapply (reduce_lits (ev_and io)); [|exact H'|].
        + intros a b c. apply (lit_on_and io (fun x => In x (symbols (EOr l)))).
        + rewrite Forall_forall in *. intros y Hy. destruct (Forall2_in_r _ _ _ _ _ _ E Hy) as (x & Hx & Ex).
          rewrite Forall_forall. intros z Hz. specialize (H x Hx y Ex (O x Hx)). rewrite Forall_forall in H.
          destruct (H z Hz) as (s & K1 & K2). exists s. split; auto. cbn [symbols]. apply in_sunions. exists (symbols x). split; auto. now apply in_map.
      - inv_bind H'. unfold on_vars in O. cbn [lits] in O. apply lits_list in O. apply mapM_Forall2 in E.
        eapply (reduce_lits (ev_or io)); [|exact H'|].
        + intros a b c. apply (lit_on_or io (fun x => In x (symbols (EAnd l)))).
        + rewrite Forall_forall in *. intros y Hy. destruct (Forall2_in_r _ _ _ _ _ _ E Hy) as (x & Hx & Ex).
          rewrite Forall_forall. intros z Hz. specialize (H x Hx y Ex (O x Hx)). rewrite Forall_forall in H.
          destruct (H z Hz) as (s & K1 & K2). exists s. split; auto. cbn [symbols]. apply in_sunions. exists (symbols x). split; auto. now apply in_map. }
    split; [exact (lit_on_on_vars n (fun x => In x (symbols e)) K)|]. intros x Hx. apply symbols_lits in Hx. destruct Hx as (y & H1 & H2).
    rewrite Forall_forall in K. destruct (K y H1) as (s & Hs & k & v & ->). destruct H2 as [<-|[]]. auto.
  Qed.

  Lemma and_on_vars : forall a b c, ev_and io a b = Ok c -> on_vars a -> on_vars b -> on_vars c.
  Proof.
    intros a b c H. apply (ev_and_lits io _ a b c H). intros k s v j t u r x (k1 & z & v1 & H1) _ _ _ Ex.
    injection H1 as -> -> ->. destruct (event_of_set_shape _ _ _ Ex) as (l & -> & _). unfold on_var. eauto.
  Qed.
  Lemma or_on_vars : forall a b c, ev_or io a b = Ok c -> on_vars a -> on_vars b -> on_vars c.
  Proof.
    intros a b c H. apply (ev_or_lits io _ a b c H). intros k s v j t u r x (k1 & z & v1 & H1) _ _ _ Ex.
    injection H1 as -> -> ->. destruct (event_of_set_shape _ _ _ Ex) as (l & -> & _). unfold on_var. eauto.
  Qed.
  Lemma cascade_on_vars : forall p c, cascade io p = Ok c -> on_vars (fst p) -> Forall on_vars (snd p) -> on_vars c.
  Proof.
    intros (e, o) c. unfold cascade. cbn [fst snd]. intros H Oe F. revert e Oe H. induction F as [|x o Ox F IH]; intros e Oe H; cbn [foldM] in H.
    - now injection H as <-.
    - inv_bind H. inv_bind E. apply (IH r); auto. destruct (not_on_vars _ _ E0 Ox) as (On & _). eapply and_on_vars; eauto.
  Qed.

  (** the clauses of a disjunction *)
  Lemma ev_or_clauses : forall a b c, ev_or io a b = Ok c -> is_basic c = true \/ c = EOr (clauses a ++ clauses b).
  Proof.
    intros a b c H.
    destruct a as [| | | | | | | |k s v|l|l], b as [| | | | | | | |j t u|m|m]; simpl in H; try discriminate H;
      try (right; apply EventOr_shape in H; subst c; reflexivity).
    destruct (teqb t s); [|right; apply EventOr_shape in H; subst c; reflexivity]. inv_bind H.
    destruct (event_of_set s r) as [e'|] eqn:Ee; [|right; apply EventOr_shape in H; subst c; reflexivity].
    left. injection H as <-. destruct (event_of_set_shape _ _ _ Ee) as (q & -> & _). reflexivity.
  Qed.
  Lemma dnf_clauses : forall e, is_dnf e -> clauses e <> [] /\ Forall is_clause (clauses e).
  Proof.
    intros e [[H|(l & -> & H)]|(l & -> & Nl & H)].
    - unfold is_lit in H. destruct e; try discriminate. split; [discriminate|]. constructor; auto. now left.
    - split; [discriminate|]. constructor; auto. right. eauto.
    - auto.
  Qed.
  Lemma ev_or_dnf : forall a b c, ev_or io a b = Ok c -> is_dnf a -> is_dnf b -> is_dnf c.
  Proof.
    intros a b c H Da Db. destruct (ev_or_clauses a b c H) as [B| ->]; [left; now left|]. right.
    destruct (dnf_clauses a Da) as (Na & Fa), (dnf_clauses b Db) as (Nb & Fb). eexists. split; [reflexivity|]. split; [|now apply Forall_app].
    destruct (clauses a); [congruence|discriminate].
  Qed.
  Lemma pairs_app : forall A (R : A -> A -> Prop) l m, ForallOrdPairs R l -> ForallOrdPairs R m -> (forall x y, In x l -> In y m -> R x y) ->
    ForallOrdPairs R (l ++ m).
  Proof.
    intros A R l m Hl Hm. induction Hl as [|x l Hx Hl IH]; intros C; simpl; auto. constructor; [|apply IH; intros; apply C; simpl; auto].
    apply Forall_app. split; auto. apply Forall_forall. intros y Hy. apply C; simpl; auto.
  Qed.
  Lemma clause_holds_event : forall a e w, In a (clauses e) -> holds a w -> holds e w.
  Proof. intros a e w H1 H2. apply holds_clauses. eauto. Qed.
  Lemma ev_or_disjoint : forall a b c, ev_or io a b = Ok c -> disjoint_clauses a -> disjoint_clauses b -> never_both a b -> disjoint_clauses c.
  Proof.
    intros a b c H Da Db Nb. destruct (ev_or_clauses a b c H) as [B| ->].
    - destruct c; try discriminate. unfold disjoint_clauses. cbn. repeat constructor.
    - unfold disjoint_clauses. cbn [clauses]. apply pairs_app; auto. intros x y Hx Hy w (H1 & H2). apply (Nb w).
      split; eapply clause_holds_event; eauto.
  Qed.

  Definition part e : Prop := gev e /\ on_vars e /\ is_dnf e /\ disjoint_clauses e.
  Lemma reduce_or_parts : forall l e, Forall part l -> ForallOrdPairs never_both l -> reduceM (ev_or io) l = Ok e ->
    part e /\ forall w, holds e w <-> exists x, In x l /\ holds x w.
  Proof.
    intros [|a l] e F P H; [discriminate|]. cbn [reduceM] in H. inversion F as [|? ? Fa Fl]; subst. inversion P as [|? ? Pa Pl]; subst. clear F P.
    revert a Fa Pa H. induction Fl as [|b l Fb Fl IH]; intros a Fa Pa H; cbn [foldM] in H.
    - injection H as <-. split; auto. intros w. split; [intros K; exists a; simpl; auto|intros (x & [<-|[]] & K); auto].
    - inv_bind H. inversion Pa as [|? ? Nab Pa']; subst. inversion Pl as [|? ? Pb Pl']; subst.
      destruct Fa as (Ga & Oa & Da & Ca), Fb as (Gb & Ob & Db & Cb). destruct (ev_or_ok io _ _ _ Ga Gb E) as (Gr & Hr).
      destruct (IH Pl' r) as (Pe & He); auto.
      + split; [auto|]. split; [eapply or_on_vars; eauto|]. split; [eapply ev_or_dnf; eauto|eapply ev_or_disjoint; eauto].
      + rewrite Forall_forall in *. intros x Hx w (K1 & K2). apply Hr in K1. destruct K1 as [K1|K1]; [apply (Pa' x Hx w)|apply (Pb x Hx w)]; auto.
      + split; auto. intros w. rewrite He. split.
        * intros (x & [<-|Hx] & K); [apply Hr in K; destruct K as [K|K]; [exists a|exists b]; simpl; auto|exists x; simpl; auto].
        * intros (x & [<-|[<-|Hx]] & K); [exists r|exists r|exists x]; simpl; split; auto; apply Hr; auto.
  Qed.

  (** clauses of the table against cascades: [o] lists the earlier clauses to take away *)
  Lemma table_in : forall pre l t, table pre l t -> Forall (fun p => In (fst p) l /\ forall x, In x (snd p) -> In x (pre ++ l)) t.
  Proof.
    induction 1; constructor.
    - cbn [fst snd]. split; [now left|]. intros x Hx. apply in_app_iff. auto.
    - eapply Forall_impl; [|exact IHtable]. intros p (H2 & H3). split; [now right|]. intros x Hx. apply H3 in Hx. rewrite <- app_assoc in Hx. exact Hx.
  Qed.
  Definition cascades : list (tr * list tr) -> list tr -> Prop :=
    Forall2 (fun p c => forall w, holds c w <-> holds (fst p) w /\ forall x, In x (snd p) -> fails x w).
  Lemma table_disjoint : forall pre l t, table pre l t -> forall cs, cascades t cs ->
    (forall x c, In x pre -> In c cs -> never_both x c) /\ ForallOrdPairs never_both cs.
  Proof.
    induction 1 as [|pre e o l t H1 H2 T IH]; intros cs C; inversion C as [|p c ? cs' Hc C']; subst; [split; [intros ? ? _ []|constructor]|].
    destruct (IH _ C') as (A & B). cbn [fst snd] in Hc. split.
    - intros x d Hx [<-|Hd]; [|apply A; auto; apply in_app_iff; auto]. intros w (K1 & K2). apply Hc in K2. destruct K2 as (K2 & K3).
      destruct (H2 x Hx) as [Ho|Nb]; [exact (not_both x w K1 (K3 x Ho))|apply (Nb w); auto].
    - constructor; auto. apply Forall_forall. intros d Hd w (K1 & K2). apply Hc in K1. destruct K1 as (K1 & _).
      apply (A e d) with (w := w); auto. apply in_app_iff. right. now left.
  Qed.
  Lemma table_complete : forall pre l t, table pre l t -> forall cs w, cascades t cs ->
    (forall x, In x (pre ++ l) -> holds x w \/ fails x w) -> (forall x, In x pre -> ~ holds x w) ->
    (exists x, In x l /\ holds x w) -> exists c, In c cs /\ holds c w.
  Proof.
    induction 1 as [|pre e o l t H1 H2 T IH]; intros cs w C D Np (x & Hx & Hw); inversion C as [|p c ? cs' Hc C']; subst; [destruct Hx|].
    cbn [fst snd] in Hc. destruct (classic (holds e w)) as [He|He].
    - exists c. split; [now left|]. apply Hc. split; auto. intros y Hy. apply H1 in Hy. destruct (D y) as [K|K]; auto.
      + apply in_app_iff; auto.
      + exfalso. exact (Np y Hy K).
    - destruct Hx as [<-|Hx]; [tauto|]. destruct (IH cs' w C') as (d & Hd & K).
      + intros y Hy. apply D. now rewrite <- app_assoc in Hy.
      + intros y Hy. apply in_app_iff in Hy. destruct Hy as [Hy|[<-|[]]]; auto.
      + eauto.
      + exists d. split; auto. now right.
  Qed.
  Lemma table_no_overlap : forall pre l t, table pre l t -> forallb (fun p => is_nil (snd p)) t = true ->
    (forall x y, In x pre -> In y l -> never_both x y) /\ ForallOrdPairs never_both l.
  Proof.
    induction 1 as [|pre e o l t H1 H2 T IH]; intros H; [split; [intros ? ? _ []|constructor]|].
    cbn [forallb snd] in H. apply andb_true_iff in H. destruct H as (Ho & H). destruct o; [|discriminate]. destruct (IH H) as (A & B). split.
    - intros x y Hx [<-|Hy]; [destruct (H2 x Hx) as [[]|K]; auto|apply A; auto; apply in_app_iff; auto].
    - constructor; auto. apply Forall_forall. intros y Hy. apply A; auto. apply in_app_iff. right. now left.
  Qed.

  Lemma somes_pairs : forall (cs : list tr) (ns : list (option tr)),
    Forall2 (fun c o => match o with Some d => forall w, holds d w -> holds c w | None => True end) cs ns ->
    ForallOrdPairs never_both cs -> ForallOrdPairs never_both (somes ns).
  Proof.
    intros cs ns F. induction F as [|c o cs ns Ho F IH]; intros P; [constructor|]. inversion P as [|? ? Pc P']; subst.
    destruct o as [d|]; cbn; [|apply IH; auto]. constructor; [|apply IH; auto].
    clear -Ho F Pc. induction F as [|c' o' cs ns Ho' F IH]; [constructor|]. inversion Pc as [|? ? N1 Pc']; subst.
    destruct o' as [d'|]; cbn; [|apply IH; auto]. constructor; [|apply IH; auto]. intros w (K1 & K2). apply (N1 w). auto.
  Qed.

  Theorem disjoint_union_ok : forall n e d, gev e -> is_dnf e -> on_vars e -> disjoint_union io po fuel n e = Ok d ->
    part d /\ (forall w, holds d w -> holds e w) /\
    (sorted nominal e \/ is_basic e = true -> forall w, sorted_asg nominal w -> holds e w -> holds d w).
  Proof.
    assert (Self : forall e, gev e -> is_dnf e -> on_vars e -> clauses e = [e] ->
      part e /\ (forall w, holds e w -> holds e w) /\
      (sorted nominal e \/ is_basic e = true -> forall w, sorted_asg nominal w -> holds e w -> holds e w)).
    { intros e G D O C. split; [|tauto]. split; [auto|]. split; [auto|]. split; [auto|]. unfold disjoint_clauses. rewrite C. repeat constructor. }
    induction n as [|n IH]; intros e d G D O H; destruct e as [| | | | | | | |k t v|l|l]; try discriminate H; cbn [disjoint_union] in H;
      try (injection H as <-; now apply Self).
    - inv_bind H. pose proof (non_disjoint_ok l r G O E) as T. destruct (forallb _ r) eqn:Ef; [|discriminate]. injection H as <-.
      split; [|tauto]. split; [auto|]. split; [auto|]. split; [auto|]. now apply (table_no_overlap [] l r).
    - inv_bind H. pose proof (non_disjoint_ok l r G O E) as T. destruct (forallb _ r) eqn:Ef.
      { injection H as <-. split; [|tauto]. split; [auto|]. split; [auto|]. split; [auto|]. now apply (table_no_overlap [] l r). }
      clear Ef. inv_bind H. inv_bind H. inv_bind H. rename r into t, r0 into cs, r1 into ns, r2 into ds.
      apply gev_or in G. destruct G as (Nl & Gl). pose proof (table_in _ _ _ T) as Ti. cbn [app] in Ti.
      assert (Ol : forall x, In x l -> on_vars x).
      { intros x Hx. pose proof O as Ol. unfold on_vars in Ol. cbn [lits] in Ol. apply lits_list in Ol. rewrite Forall_forall in Ol. exact (Ol x Hx). }
      assert (Sl : sorted nominal (EOr l) -> forall x, In x l -> sorted nominal x).
      { intros S x Hx. unfold sorted in S. cbn [lits] in S. apply lits_list in S. rewrite Forall_forall in S. exact (S x Hx). }
      apply mapM_Forall2 in E0, E1, E2.
      (* cascades *)
      assert (C : Forall2 (fun p c => gev c /\ on_vars c /\ (forall w, holds c w <-> holds (fst p) w /\ forall x, In x (snd p) -> fails x w) /\
                    (sorted nominal (EOr l) -> Forall sv (lits c))) t cs).
      { clear -E0 Ti Gl Ol Sl. induction E0 as [|p c t cs H E IH]; constructor; inversion Ti as [|? ? (K1 & K2) Ti']; subst; auto.
        assert (Gp : gev (fst p)) by (rewrite Forall_forall in Gl; auto).
        assert (Go : Forall gev (snd p)) by (rewrite Forall_forall in *; auto).
        destruct (cascade_ok p c Gp Go H) as (Gc & Hc). split; auto. split; [|split; auto].
        - apply (cascade_on_vars p c H); [auto|]. apply Forall_forall. auto.
        - intros S. apply (cascade_sv p c Gp Go); auto. apply Forall_forall. auto. }
      assert (C1 : cascades t cs) by (clear -C; unfold cascades; induction C as [|? ? ? ? (_ & _ & K & _)]; constructor; auto).
      destruct (table_disjoint _ _ _ T _ C1) as (_ & Pd).
      (* normal forms *)
      assert (Nf : Forall2 (fun c o => match o with
                    | Some x => gev x /\ is_dnf x /\ on_vars x /\ (forall w, holds x w <-> holds c w) /\ (sorted nominal (EOr l) -> sorted nominal x \/ is_basic x = true)
                    | None => forall w, ~ holds c w end) cs ns).
      { clear -E1 C. assert (Fc : Forall (fun c => gev c /\ on_vars c /\ (sorted nominal (EOr l) -> Forall sv (lits c))) cs).
        { clear E1. induction C as [|? ? ? ? (A & B & _ & D) C IH]; constructor; auto. }
        clear C. induction E1 as [|c o cs ns H E IH]; constructor; inversion Fc as [|? ? (A & B & S) Fc']; subst; auto.
        pose proof (dnf_normalize_ok io po fuel c o A H) as K. destruct o as [x|].
        - destruct K as (K1 & K2 & K3 & K4). split; auto. split; auto. split; [exact (lit_on_on_vars x (fun s => In s (symbols c)) K3)|]. split.
          + intros w. apply (K4 w true). now apply on_vars_regular.
          + intros Sl. apply (normalize_sorted c x); auto.
        - intros w. apply (K w true). now apply on_vars_regular. }
      assert (Ps : ForallOrdPairs never_both (somes ns)).
      { apply (somes_pairs cs ns); auto. clear -Nf. induction Nf as [|c o cs ns H Nf IH]; constructor; auto.
        destruct o; auto. intros w. apply H. }
      (* recursive calls *)
      assert (Rc : Forall2 (fun x y => part y /\ (forall w, holds y w -> holds x w) /\
                    (sorted nominal (EOr l) -> forall w, sorted_asg nominal w -> holds x w -> holds y w)) (somes ns) ds).
      { assert (Fs : Forall (fun x => gev x /\ is_dnf x /\ on_vars x /\ (sorted nominal (EOr l) -> sorted nominal x \/ is_basic x = true)) (somes ns)).
        { clear -Nf. induction Nf as [|c o cs ns H Nf IH]; [constructor|]. destruct o; cbn; auto. constructor; auto. tauto. }
        clear -E2 Fs IH. induction E2 as [|x y xs ys H E IHE]; constructor; inversion Fs as [|? ? (A & B & C & D) Fs']; subst; auto.
        destruct (IH x y A B C H) as (P1 & P2 & P3). split; auto. }
      assert (Pp : Forall part ds) by (clear -Rc; induction Rc as [|? ? ? ? (K & _)]; constructor; auto).
      assert (Pq : ForallOrdPairs never_both ds).
      { clear -Rc Ps. induction Rc as [|x y xs ys (_ & H & _) Rc IH]; [constructor|]. inversion Ps as [|? ? Px Ps']; subst. constructor; auto.
        clear -H Rc Px. induction Rc as [|x' y' xs ys (_ & H' & _) Rc IH]; constructor; inversion Px as [|? ? N1 Px']; subst; auto.
        intros w (K1 & K2). apply (N1 w). auto. }
      destruct (reduce_or_parts ds d Pp Pq H) as (Pd' & Hd). split; auto. split.
      + intros w Hw. apply Hd in Hw. destruct Hw as (y & Hy & Hw).
        destruct (Forall2_in_r _ _ _ _ _ _ Rc Hy) as (x & Hx & _ & K & _). apply K in Hw.
        assert (exists c, In c cs /\ holds c w) as (c & Hc & Hcw).
        { clear -Nf Hx Hw. induction Nf as [|c o cs ns H Nf IH]; [destruct Hx|]. destruct o as [z|]; cbn in Hx.
          - destruct Hx as [->|Hx]; [exists c; split; [now left|]; now apply H|]. destruct (IH Hx) as (c' & H1 & H2). exists c'. split; auto. now right.
          - destruct (IH Hx) as (c' & H1 & H2). exists c'. split; auto. now right. }
        destruct (Forall2_in_r _ _ _ _ _ _ C Hc) as (p & Hp & _ & _ & Kp & _). apply Kp in Hcw. destruct Hcw as (Hcw & _).
        rewrite Forall_forall in Ti. apply holds_or. exists (fst p). split; auto. now apply Ti.
      + intros [S|S]; [|discriminate]. intros w Sw Hw. apply holds_or in Hw.
        destruct (table_complete _ _ _ T cs w C1) as (c & Hc & Hcw); auto.
        * intros x Hx. cbn [app] in Hx. apply sorted_defined; auto. rewrite Forall_forall in Gl; auto.
        * apply Hd.
          assert (exists x, In x (somes ns) /\ holds x w) as (x & Hx & Hxw).
          { clear -Nf Hc Hcw. induction Nf as [|c' o cs ns H Nf IH]; [destruct Hc|]. destruct Hc as [->|Hc].
            - destruct o as [z|]; [exists z; split; [now left|now apply H]|now apply H in Hcw].
            - destruct (IH Hc) as (x & H1 & H2). exists x. split; auto. destruct o; cbn; auto. }
          assert (Sub : forall xs ys, Forall2 (fun x y => part y /\ (forall w, holds y w -> holds x w) /\
                    (sorted nominal (EOr l) -> forall w, sorted_asg nominal w -> holds x w -> holds y w)) xs ys -> In x xs -> exists y, In y ys /\ holds y w).
          { clear -S Sw Hxw. induction 1 as [|x' y xs ys (_ & _ & K) F IH]; intros Hx; [destruct Hx|]. destruct Hx as [->|Hx].
            - exists y. split; [now left|auto].
            - destruct (IH Hx) as (y' & H1 & H2). exists y'. split; auto. now right. }
          now apply (Sub (somes ns) ds).
  Qed.
End Union.
