(** What dnf_normalize does to the sorts of literals. *)
From Coq Require Import List Bool String Reals Lra Lia ZArith Classical.
From Verif Require Import Base Num Sets SetSpec SetIv SetProofs SetIvOr SetOr SetOps SetAlg SetBuilt
  Poly Trans TransSpec TransFacts PolyProofs InvProofs InvMain EvProofs ArithProofs Dnf DnfSpec DnfProofs DnfUnion
  Logs Spe SpeSpec LeafEvents MemoProofs.
Import ListNotations.

Section Norm.
  Context {N : numsys} (io : iterorder N) (po : polyoracle N) (fuel : nat).
  Notation tr := (tr N).
  Notation pset := (pset N).
  Context (nominal : string -> bool).

  (** string sets constrain nominal variables only *)
  Definition kind_ok (l : tr) : Prop := num_lit l \/ forall x, In x (symbols l) -> nominal x = true.
  Definition event_kinds (e : tr) : Prop := Forall kind_ok (lits e).

  Lemma num_merge : forall k s v j t u r x, num_lit (EBasic k s v) -> gev (EBasic k s v) -> gev (EBasic j t u) ->
    pand io v u = Ok r -> event_of_set s r = Some x -> num_lit x.
  Proof.
    intros k s v j t u r x K1 G1 G2 Hp Ex. destruct (event_of_set_shape _ _ _ Ex) as (k' & -> & Kn).
    apply gev_wf in G1, G2. destruct G1 as (_ & W1 & G1 & _), G2 as (_ & W2 & _ & _). destruct (pand_f io _ _ _ W1 W2 Hp) as (Wr & Fr & Rr & _).
    unfold num_lit. destruct k'; auto. exfalso. destruct Kn as (Kn & _).
    assert (Rv : real_set v) by (destruct k; [destruct G1 as (i & ->)|destruct G1 as [->|(vs & ->)]|destruct K1]; exact I).
    specialize (Rr (or_introl Rv)). specialize (Kn eq_refl). clear -Kn Rr. destruct r as [|[]|]; simpl in *; tauto.
  Qed.
  Lemma kind_merge : forall k s v j t u r x, kind_ok (EBasic k s v) -> gev (EBasic k s v) -> gev (EBasic j t u) ->
    pand io v u = Ok r -> event_of_set s r = Some x -> kind_ok x.
  Proof.
    intros k s v j t u r x [K|K] G1 G2 Hp Ex; [left; eapply num_merge; eauto|right]. destruct (event_of_set_shape _ _ _ Ex) as (k' & -> & _). exact K.
  Qed.

  (** the literals of t << v *)
  Lemma t_in_kinds : forall x v e, wf v -> (nominal x = false -> real_set v) -> t_in io (TId x) v = Ok e -> Forall (lit_in nominal (eq x)) (lits e).
  Proof.
    intros x v e W Rl H.
    assert (B : forall b y, wf (PB b) -> (nominal x = false -> real_set (PB b)) -> t_in_basic (N:=N) (TId x) (PB b) = Ok y -> Forall (lit_in nominal (eq x)) (lits y)).
    { intros b y Wb Rb Hy. destruct (t_in_ok io (TId x) (PB b) y) as (A & _); simpl; auto.
      pose proof (gev_lits _ A) as Gl. destruct b; injection Hy as <-; cbn in *; constructor; auto; split; try (now inversion Gl as [|? ? (K & _) _]; subst); exists x; split; auto;
        eexists; eexists; (split; [reflexivity|]); intros Hk; try discriminate; destruct (nominal x); auto; now destruct (Rb eq_refl). }
    destruct v as [|b|u].
    - cbn in H. injection H as <-. cbn. constructor; auto. split; [split; simpl; auto|]. exists x. split; auto. exists KReal, PEmpty. split; auto. discriminate.
    - now apply (B b).
    - cbn [t_in] in H. inv_bind H. apply mapM_Forall2 in E. apply (reduce_lits (ev_or io) (lit_in nominal (eq x)) r); auto; [intros a b c; apply lit_in_or|].
      assert (Wu : Forall (fun b => wf (PB b)) u) by (apply Forall_forall; intros b Hb; destruct W as (W & _); rewrite Forall_forall in W; now apply W).
      assert (Ru : nominal x = false -> Forall (fun b => real_set (PB b)) u) by (intros Hx; specialize (Rl Hx); simpl in Rl; exact Rl).
      clear -E B Wu Ru. induction E as [|b y u r E0 E IH]; constructor; inversion Wu; subst.
      + apply (B b); auto. intros Hx. specialize (Ru Hx). now inversion Ru.
      + apply IH; auto. intros Hx. specialize (Ru Hx). now inversion Ru.
  Qed.

  (** ** String sets stay on nominal variables *)
  Lemma normalize_kinds : forall e d, gev e -> event_kinds e -> dnf_normalize io po fuel e = Ok (Some d) ->
    Forall (lit_in nominal (fun x => In x (symbols e))) (lits d).
  Proof.
    intros e d G S H. destruct (dnf_normalize_cases io po fuel e) as [(k & x & v & -> & K)|K]; rewrite K in H; clear K.
    - injection H as <-. cbn. constructor; auto. split; auto. exists x. split; [now left|]. exists k, v. split; auto. intros ->.
      inversion S as [|? ? [K|K] _]; subst; [destruct K|]. apply K. now left.
    - unfold normalize_general in H. inv_bind H. rename r into e'. destruct (to_dnf_ok e G) as (d' & Hd & Gd & Dd & _).
      rewrite E in Hd. injection Hd as <-. inv_bind H. inv_bind H.
      assert (S' : Forall kind_ok (lits e')).
      { unfold event_kinds in S. rewrite Forall_forall in *. intros y Hy. apply S. eapply to_dnf_lits; eauto. }
      assert (Sy : forall x, In x (symbols e') -> In x (symbols e)).
      { intros y Hy. apply symbols_lits in Hy. destruct Hy as (l & H1 & H2). apply symbols_lits. exists l. split; auto. eapply to_dnf_lits; eauto. }
      pose proof (solutions_ok io po fuel e' _ _ Gd E0 E1) as So. apply mapM_Forall2 in E1.
      unfold dnf_factor in E0. fold (self e') in E0.
      pose proof (dnf_factor_with_ok io (self e') kind_ok e' r) as T.
      specialize (T ltac:(apply keyed_merge; intros kk s v j t u r' x' H1 _ H2 H3 _ H4 H5; exact (kind_merge kk s v j t u r' x' H1 H2 H3 H4 H5)) Gd S' E0).
      assert (Q : forall s, In s r0 -> Forall (fun p => wf (snd p) /\ (nominal (fst p) = false -> real_set (snd p)) /\ In (fst p) (symbols e)) s).
      { intros s Hs. apply Forall_forall. intros p Hp.
        destruct (Forall2_in_r _ _ _ _ _ _ So Hs) as (a & _ & Ws & Ks & _). rewrite Forall_forall in Ws. split; auto. split; [|apply Sy, Ks; now apply in_map].
        destruct (Forall2_in_r _ _ _ _ _ _ E1 Hs) as (c & Hc & Sc). destruct (Forall2_in_r _ _ _ _ _ _ T Hc) as (a' & _ & (Fc & _) & _).
        apply solve_clause_shape in Sc. destruct (Forall2_in_r _ _ _ _ _ _ Sc Hp) as (q & Hq & Eq & Sq). rewrite Forall_forall in Fc. destruct (Fc q Hq) as (Gq & Lq).
        intros Hn. assert (Kq : keyed (self e') (fst q) (snd q)) by (apply keyed_lits; eapply Forall_impl; [|exact Lq]; intros y (K & _); exact K).
        apply (solve_real io po fuel (fst q) (snd q)); auto; [now apply (keyed_only e')|].
        unfold num_event. rewrite Forall_forall in *. intros l Hl. destruct (Lq l Hl) as (_ & [K|K]); auto. exfalso.
        destruct (symbols_some l) as (x & Hx); [pose proof (gev_lits _ Gq) as Gl; rewrite Forall_forall in Gl; apply (Gl l Hl)|].
        assert (Hx' : In x (symbols (snd q))) by (apply symbols_lits; eauto). apply (keyed_only _ _ _ Kq) in Hx'. specialize (K x Hx). subst x. rewrite <- Eq in K. congruence. }
      remember (filter all_nonempty r0) as sl eqn:Esl. destruct sl as [|s0 sl]; [discriminate|]. set (sl' := s0 :: sl) in *.
      inv_bind H. inv_bind H. inv_bind H. injection H as <-. apply mapM_Forall2 in E2.
      assert (C : Forall (fun c => gev c /\ Forall (lit_in nominal (fun x => In x (symbols e))) (lits c)) r1).
      { apply Forall_forall. intros c Hc. destruct (Forall2_in_r _ _ _ _ _ _ E2 Hc) as (s & Hs & Es). apply unseen_incl in Hs.
        assert (Hs' : In s r0) by (rewrite Esl in Hs; now apply filter_In in Hs). specialize (Q s Hs').
        split; [apply (conj_of_ok io s c); auto; eapply Forall_impl; [|exact Q]; intros p (K & _); exact K|].
        unfold conj_of in Es. inv_bind Es. apply mapM_Forall2 in E5.
        apply (reduce_lits (ev_and io) _ r4 c); auto; [intros ? ? ?; apply lit_in_and|]. apply Forall_forall. intros y Hy.
        destruct (Forall2_in_r _ _ _ _ _ _ E5 Hy) as (p & Hp & Ep). rewrite Forall_forall in Q. destruct (Q p Hp) as (Wp & Rp & Ip).
        eapply Forall_impl; [|exact (t_in_kinds _ _ _ Wp Rp Ep)]. intros l (Gl & x & <- & Lx). split; eauto. }
      assert (Gr : gev r2).
      { apply reduce_or with (io := io) (l := r1); auto. eapply Forall_impl; [|exact C]. intros y (K & _); exact K. }
      assert (L : Forall (lit_in nominal (fun x => In x (symbols e))) (lits r2)).
      { apply (reduce_lits (ev_or io) _ r1 r2); auto; [intros ? ? ?; apply lit_in_or|]. eapply Forall_impl; [|exact C]. intros y (_ & K); exact K. }
      rewrite Forall_forall in *. intros y Hy. apply L. eapply to_dnf_lits; eauto.
  Qed.

  (** ** Events that keep the sorts of variables *)

  (** a literal about numbers constrains variables that are numbers; a nominal variable is
      constrained by a set of strings, or by the empty set *)
  Definition sort_ok (l : tr) : Prop :=
    (num_lit l /\ forall x, In x (symbols l) -> nominal x = false) \/
    (exists k x v, l = EBasic k (TId x) v /\ nominal x = true /\ (v = PEmpty \/ k = KNom)).
  Definition event_sorts (e : tr) : Prop := Forall sort_ok (lits e).
  Lemma sort_kind : forall l, sort_ok l -> kind_ok l.
  Proof.
    intros l [(K & _)|(k & x & v & -> & Hx & _)]; [now left|]. right. intros y [<-|[]]. exact Hx.
  Qed.
  Lemma sorts_kinds : forall e, event_sorts e -> event_kinds e.
  Proof. intros e H. eapply Forall_impl; [|exact H]. exact sort_kind. Qed.

  Notation entry := (entry (N:=N) nominal).
  Notation sv := (sv (N:=N) nominal).
  Definition entryN (p : string * tr) : Prop := gev (snd p) /\ (nominal (fst p) = true -> entry p).
  Lemma entry_and : forall k a b r, entry (k, a) -> entry (k, b) -> ev_and io a b = Ok r -> entry (k, r).
  Proof.
    intros k a b r (Ge & Le & Se) (Gv & Lv & Sv) E. cbn [fst snd] in *.
    destruct (ev_and_ok io _ _ _ Ge Gv E) as (Gr & _). pose proof (and_lit_on io _ _ _ _ Ge Gv Le Lv E) as Lr. split; auto. split; auto. cbn [snd].
    destruct Le as (k1 & v1 & ->), Lv as (k2 & v2 & ->). assert (S : Forall (good_sv nominal) (lits r)).
    { apply (and_sv io nominal _ _ _ E); cbn; constructor; auto; split; auto. }
    destruct Lr as (k3 & v3 & ->). cbn in S. inversion S as [|? ? Kr Kn]; subst. exact (proj2 Kr).
  Qed.
  Lemma add_key_entryN : forall c key ev c', Forall entryN c -> entryN (key, ev) -> add_key io c key ev = Ok c' -> Forall entryN c'.
  Proof.
    induction c as [|(k, e) c IH]; intros key ev c' F E H; cbn [add_key] in H.
    - injection H as <-. auto.
    - inversion F as [|? ? (Ge & Ke) Fc]; subst. cbn [fst snd] in *. destruct E as (Gv & Kv). cbn [fst snd] in *.
      destruct (String.eqb key k) eqn:Ek.
      + apply String.eqb_eq in Ek. subst k. inv_bind H. injection H as <-. constructor; auto. split; cbn [fst snd].
        * now destruct (ev_and_ok io _ _ _ Ge Gv E).
        * intros Hn. apply (entry_and key e ev); auto.
      + inv_bind H. injection H as <-. constructor; [split; auto|]. eapply IH; eauto. split; auto.
  Qed.
  Lemma factor_lit_entryN : forall lk e ke, (forall s k, lookup s lk = Some k -> k = s) -> gev e -> sort_ok e -> factor_lit lk e = Ok ke -> entryN ke.
  Proof.
    intros lk e (k, x) Lk G S H. unfold factor_lit in H. destruct (symbols e) as [|y [|]] eqn:Es; try discriminate.
    destruct (lookup y lk) as [z|] eqn:El; [|discriminate]. injection H as <- <-. apply Lk in El. subst z. split; auto. cbn [fst]. intros Hn.
    destruct S as [(_ & S)|(k1 & x1 & v1 & -> & Hx & S)].
    - rewrite S in Hn; [discriminate|]. rewrite Es. now left.
    - cbn in Es. injection Es as ->. split; auto. split; [exists k1, v1; auto|]. cbn [snd]. exists k1, y, v1. split; auto. destruct S as [->|S]; auto. right. tauto.
  Qed.
  Lemma factor_entriesN : forall e f, gev e -> Forall sort_ok (lits e) -> dnf_factor io e = Ok f -> Forall (Forall entryN) f.
  Proof.
    intros e f G S H. unfold dnf_factor in H.
    assert (Lk : forall s k, lookup s (map (fun s => (s, s)) (symbols e)) = Some k -> k = s) by (intros s k K; apply lookup_self in K; tauto).
    revert H Lk. generalize (map (fun s => (s, s)) (symbols e)) as lk. intros lk H Lk.
    assert (Cl : forall a c, gev a -> Forall sort_ok (lits a) -> factor_clause io lk a = Ok c -> Forall entryN c).
    { clear e f G S H. intros a c G S H. destruct a; try discriminate; cbn [factor_clause] in H.
      - inv_bind H. injection H as <-. constructor; auto. inversion S; subst. eapply factor_lit_entryN; eauto.
      - unfold factor_and in H. inv_bind H. apply passert_Ok in E. apply gev_and in G. destruct G as (_ & G). cbn [lits] in S. apply lits_list in S.
        assert (F0 : Forall entryN []) by constructor. revert F0 H. generalize (@nil (string * tr)) as c0. revert E.
        induction l as [|x l IH]; intros Bl c0 F0 H; cbn [foldM] in H; [now injection H as <-|].
        inversion G; inversion S; subst. cbn [forallb] in Bl. apply andb_true_iff in Bl. destruct Bl as (Bx & Bl). inv_bind H. inv_bind E.
        apply IH in H; auto. eapply add_key_entryN; [exact F0| |exact E]. destruct r1 as (k0, y0). cbn [fst snd].
        eapply factor_lit_entryN; eauto. destruct x; try discriminate. now inversion H6. }
    destruct e; try discriminate; cbn [dnf_factor_with] in H.
    - inv_bind H. injection H as <-. constructor; auto. eapply Cl; eauto.
    - inv_bind H. apply gev_or in G. destruct G as (_ & G). cbn [lits] in S. apply lits_list in S. apply mapM_Forall2 in H. clear E.
      induction H; constructor; inversion G; inversion S; subst; auto. eapply Cl; eauto.
    - inv_bind H. injection H as <-. constructor; auto. eapply Cl; eauto.
  Qed.

  (** sets of the sort of the variable *)
  Definition sort_set (x : string) (v : pset) : Prop := if nominal x then nominal_set v else real_set v.
  Definition basic_or (x : string) (e : tr) : Prop := lit_on x e \/ exists m, e = EOr m.
  Lemma ev_or_basic_or : forall x a b c, basic_or x a -> lit_on x b -> ev_or io a b = Ok c -> basic_or x c.
  Proof.
    intros x a b c [(k & v & ->)|(m & ->)] (j & u & ->) H; cbn [ev_or teqb] in H.
    - rewrite String.eqb_refl in H. inv_bind H. destruct (event_of_set (TId x) r) as [y|] eqn:Ey.
      + injection H as <-. destruct (event_of_set_shape _ _ _ Ey) as (l & -> & _). left. unfold lit_on. eauto.
      + apply EventOr_shape in H. right. eauto.
    - apply EventOr_shape in H. right. eauto.
  Qed.
  Lemma t_in_sorted : forall x v e, wf v -> v <> PEmpty -> sort_set x v -> t_in io (TId x) v = Ok e ->
    Forall (good_sorted nominal) (lits e) /\ basic_or x e.
  Proof.
    intros x v e W Ne Sv H.
    assert (B : forall b y, wf (PB b) -> sort_set x (PB b) -> t_in_basic (N:=N) (TId x) (PB b) = Ok y -> Forall (good_sorted nominal) (lits y) /\ lit_on x y).
    { intros b y Wb Rb Hy. destruct (t_in_ok io (TId x) (PB b) y) as (A & _); simpl; auto.
      pose proof (gev_lits _ A) as Gl. unfold sort_set in Rb.
      destruct b; injection Hy as <-; cbn in *; (split; [|unfold lit_on; eauto]); constructor; auto; split; try (now inversion Gl as [|? ? (K & _) _]; subst);
        eexists; eexists; eexists; (split; [reflexivity|]); (split; [discriminate|]); destruct (nominal x); try tauto; split; auto; discriminate. }
    destruct v as [|b|u]; [congruence| |].
    - cbn [t_in] in H. destruct (B b e W Sv H) as (H1 & H2). split; auto. now left.
    - cbn [t_in] in H. inv_bind H. apply mapM_Forall2 in E. unfold sort_set in *. cbn [nominal_set real_set] in *.
      assert (K : Forall (fun y => Forall (good_sorted nominal) (lits y) /\ lit_on x y) r).
      { apply Forall_forall. intros y Hy. destruct (Forall2_in_r _ _ _ _ _ _ E Hy) as (b & Hb & Eb). apply (B b y); auto.
        - destruct W as (W & _). rewrite Forall_forall in W. now apply W.
        - destruct (nominal x); [contradiction|]. rewrite Forall_forall in Sv. now apply Sv. }
      split.
      + apply (reduce_lits (ev_or io) _ r e); auto; [apply or_sorted|]. eapply Forall_impl; [|exact K]. intros y (K1 & _); exact K1.
      + clear -H K. destruct r as [|y r]; [discriminate|]. cbn [reduceM] in H. inversion K as [|? ? (_ & Ly) Kr]; subst.
        assert (By : basic_or x y) by now left. clear Ly K. revert y By H. induction r as [|z r IH]; intros y By H; cbn [foldM] in H; [now injection H as <-|].
        inv_bind H. inversion Kr as [|? ? (_ & Lz) Kr']; subst. apply (IH Kr' r0); auto. apply (ev_or_basic_or x y z); auto.
  Qed.
  Lemma and_apart : forall l ks s e, foldM (ev_and io) l s = Ok e ->
    Forall2 basic_or ks l -> NoDup ks -> (exists k, basic_or k s /\ ~ In k ks) \/ (exists m, s = EAnd m) ->
    lits e = lits s ++ List.concat (map (@lits N) l).
  Proof.
    intros l ks s e H F. revert s H. induction F as [|k y ks l Ly F IH]; intros s H Nd Sh; cbn [foldM] in H.
    - injection H as <-. cbn. now rewrite app_nil_r.
    - inv_bind H. inversion Nd as [|? ? Nk Nd']; subst.
      assert (K : lits r = lits s ++ lits y /\ exists m, r = EAnd m).
      { destruct Ly as [(ky & vy & ->)|(my & ->)]; destruct Sh as [(k' & [(ks' & vs & ->)|(ms & ->)] & Ni)|(m & ->)]; cbn [ev_and teqb] in E;
          try (apply EventAnd_shape in E; subst r; cbn [lits map List.concat]; rewrite ?app_nil_r, ?map_app, ?concat_app; cbn; rewrite ?app_nil_r; split; [reflexivity|eauto]; fail).
        destruct (String.eqb k k') eqn:Ek; [apply String.eqb_eq in Ek; subst; exfalso; apply Ni; now left|].
        apply EventAnd_shape in E. subst r. split; [reflexivity|eauto]. }
      destruct K as (K1 & K2). rewrite (IH r H Nd' (or_intror K2)), K1, <- app_assoc. reflexivity.
  Qed.
  Lemma conj_of_sorted : forall c e, NoDup (map fst c) -> Forall (fun p => wf (snd p) /\ snd p <> PEmpty /\ sort_set (fst p) (snd p)) c ->
    conj_of io c = Ok e -> Forall (good_sorted nominal) (lits e).
  Proof.
    intros c e Nd F H. unfold conj_of in H. inv_bind H. apply mapM_Forall2 in E.
    assert (F2 : Forall2 (fun p y => Forall (good_sorted nominal) (lits y) /\ basic_or (fst p) y) c r).
    { clear H Nd. induction E as [|(x, v) y c r H E IH]; constructor; inversion F as [|? ? (W & Ne & Sv) F']; subst; auto. cbn [fst snd] in *.
      apply (t_in_sorted x v); auto. }
    destruct c as [|p c]; [inversion F2; subst; discriminate|]. inversion F2 as [|? y ? l (Gy & By) F2']; subst. cbn [reduceM] in H.
    cbn [map] in Nd. inversion Nd as [|? ? Nk Nd']; subst.
    apply and_apart with (ks := map fst c) in H; auto.
    - rewrite H. apply Forall_app. split; auto. clear -F2'. induction F2' as [|q y c l (G & _) F IH]; cbn [map List.concat]; [constructor|]. apply Forall_app; auto.
    - clear -F2'. induction F2' as [|q y c l (_ & B) F IH]; constructor; auto.
    - left. eauto.
  Qed.

  Lemma normalize_general_sorts : forall e d, gev e -> event_sorts e -> normalize_general io po fuel e = Ok (Some d) -> sorted nominal d.
  Proof.
    intros e d G S H.
    - unfold normalize_general in H. inv_bind H. rename r into e'. destruct (to_dnf_ok e G) as (d' & Hd & Gd & Dd & _).
      rewrite E in Hd. injection Hd as <-. inv_bind H. inv_bind H.
      assert (S' : Forall sort_ok (lits e')).
      { unfold event_sorts in S. rewrite Forall_forall in *. intros y Hy. apply S. eapply to_dnf_lits; eauto. }
      pose proof (factor_entriesN e' r Gd S' E0) as Fe.
      pose proof (solutions_ok io po fuel e' _ _ Gd E0 E1) as So. apply mapM_Forall2 in E1.
      unfold dnf_factor in E0. fold (self e') in E0.
      assert (K' : Forall kind_ok (lits e')) by (eapply Forall_impl; [|exact S']; exact sort_kind).
      pose proof (dnf_factor_with_ok io (self e') kind_ok e' r) as T.
      specialize (T ltac:(apply keyed_merge; intros kk s v j t u r' x' H1 _ H2 H3 _ H4 H5; exact (kind_merge kk s v j t u r' x' H1 H2 H3 H4 H5)) Gd K' E0).
      assert (Q : forall s, In s (filter all_nonempty r0) -> NoDup (map fst s) /\ Forall (fun p => wf (snd p) /\ snd p <> PEmpty /\ sort_set (fst p) (snd p)) s).
      { intros s Hs. apply filter_In in Hs. destruct Hs as (Hs & Ne). destruct (Forall2_in_r _ _ _ _ _ _ So Hs) as (a & _ & Ws & Ks & Nd & _). split; auto.
        apply Forall_forall. intros p Hp. rewrite Forall_forall in Ws. split; auto.
        assert (Nv : snd p <> PEmpty) by (unfold all_nonempty in Ne; rewrite forallb_forall in Ne; specialize (Ne p Hp); intros K; rewrite K in Ne; discriminate).
        split; auto.
        destruct (Forall2_in_r _ _ _ _ _ _ E1 Hs) as (c & Hc & Sc). destruct (Forall2_in_r _ _ _ _ _ _ T Hc) as (a' & _ & (Fc & _) & _).
        rewrite Forall_forall in Fe. specialize (Fe c Hc).
        apply solve_clause_shape in Sc. destruct (Forall2_in_r _ _ _ _ _ _ Sc Hp) as (q & Hq & Eq & Sq). rewrite Forall_forall in Fc, Fe. destruct (Fc q Hq) as (Gq & Lq).
        destruct (Fe q Hq) as (_ & Kq). unfold sort_set. rewrite Eq in *. destruct (nominal (fst q)) eqn:Hn.
        - destruct (Kq eq_refl) as (_ & (j & u & Lx) & Sx). rewrite Lx in *. cbn in Sq. injection Sq as Sq. rewrite <- Sq in *.
          apply sv_sorted in Sx; auto. destruct Sx as (k1 & x1 & v1 & H1 & _ & Sj). injection H1 as -> <- <-. apply Sj in Hn. subst k1.
          apply gev_wf in Gq. destruct Gq as (_ & _ & [Gq|Gq] & _); congruence || exact Gq.
        - assert (Ko : keyed (self e') (fst q) (snd q)) by (apply keyed_lits; eapply Forall_impl; [|exact Lq]; intros y (K & _); exact K).
          apply (solve_real io po fuel (fst q) (snd q)); auto; [now apply (keyed_only e')|].
          unfold num_event. rewrite Forall_forall in *. intros l Hl. destruct (Lq l Hl) as (_ & [K|K]); auto. exfalso.
          destruct (symbols_some l) as (x & Hx); [pose proof (gev_lits _ Gq) as Gl; rewrite Forall_forall in Gl; apply (Gl l Hl)|].
          assert (Hx' : In x (symbols (snd q))) by (apply symbols_lits; eauto). apply (keyed_only _ _ _ Ko) in Hx'. specialize (K x Hx). subst x. congruence. }
      remember (filter all_nonempty r0) as sl eqn:Esl. destruct sl as [|s0 sl]; [discriminate|]. set (sl' := s0 :: sl) in *.
      inv_bind H. inv_bind H. inv_bind H. injection H as <-. apply mapM_Forall2 in E2.
      assert (C : Forall (fun c => gev c /\ Forall (good_sorted nominal) (lits c)) r1).
      { apply Forall_forall. intros c Hc. destruct (Forall2_in_r _ _ _ _ _ _ E2 Hc) as (s & Hs & Es). apply unseen_incl in Hs.
        destruct (Q s Hs) as (Nd & Fs). split.
        - apply (conj_of_ok io s c); auto. eapply Forall_impl; [|exact Fs]. intros p (K & _); exact K.
        - apply (conj_of_sorted s); auto. }
      assert (Gr : gev r2).
      { apply reduce_or with (io := io) (l := r1); auto. eapply Forall_impl; [|exact C]. intros y (K & _); exact K. }
      assert (L : Forall (good_sorted nominal) (lits r2)).
      { apply (reduce_lits (ev_or io) _ r1 r2); auto; [apply or_sorted|]. eapply Forall_impl; [|exact C]. intros y (_ & K); exact K. }
      unfold sorted. rewrite Forall_forall in *. intros y Hy. apply L. eapply to_dnf_lits; eauto.
  Qed.
  Lemma normalize_sorts : forall e d, gev e -> event_sorts e -> dnf_normalize io po fuel e = Ok (Some d) ->
    sorted nominal d \/ is_basic d = true.
  Proof.
    intros e d G S H. destruct (dnf_normalize_cases io po fuel e) as [(k & x & v & -> & K)|K]; rewrite K in H; clear K.
    - injection H as <-. auto.
    - left. now apply (normalize_general_sorts e).
  Qed.
  (** the same, as a statement about the sorts of the result *)
  Lemma normalize_event_sorts : forall e d, gev e -> event_sorts e -> dnf_normalize io po fuel e = Ok (Some d) -> event_sorts d.
  Proof.
    intros e d G S H. destruct (dnf_normalize_cases io po fuel e) as [(k & x & v & -> & K)|K]; rewrite K in H; clear K.
    - injection H as <-. auto.
    - pose proof (normalize_general_sorts e d G S H) as Sd. unfold event_sorts. eapply Forall_impl; [|exact Sd]. intros l (k & x & v & -> & Nv & Hk). destruct (nominal x) eqn:Hn.
      + right. exists k, x, v. split; auto. split; auto. right. tauto.
      + left. split; [destruct k; cbn; auto; destruct Hk as (Hk & _); discriminate (Hk eq_refl)|]. intros y [<-|[]]. exact Hn.
  Qed.
End Norm.
