(** Making the clauses of an event of comparisons disjoint comes to an end. *)
From Coq Require Import List Bool String Reals Lra Lia ZArith Classical Permutation.
From Verif Require Import Base Num Sets SetSpec SetIv SetProofs SetOr SetOps SetAlg SetBuilt
  Poly Trans TransSpec TransFacts PolyProofs InvProofs InvMain EvProofs ArithProofs
  Dnf DnfSpec DnfProofs DnfUnion PropDnf LeafProofs LeafEvents Logs Spe SpeSpec SpeFacts SpeCons MemoProofs CondTypes
  TotalSpec TotalEnds TotalSets TotalSolve TotalProofs PropTotal.
Import ListNotations.
Local Open Scope R_scope.

(** ** Complements *)
Section Not.
  Context {N : numsys} (io : iterorder N) (nominal : string -> bool) (cuts : string -> R -> Prop).
  Notation pset := (pset N).
  Notation tr := (tr N).
  Definition no_points (x : string) (r : R) : Prop := False.
  Notation cmp := (cmp (N:=N) nominal cuts no_points).
  Notation cmps := (cmps (N:=N) nominal cuts no_points).
  Notation fits := (fits (N:=N) nominal cuts no_points).

  Lemma Interval_ends : forall a b lo ro (i : interval N), Interval_ a b lo ro = Ok i -> iv_a i = a /\ iv_b i = b.
  Proof. intros a b lo ro i H. unfold Interval_ in H. inv_bind H. injection H as <-. auto. Qed.
  Lemma gaps_ends : forall (P : R -> Prop) l (x : ext (num N)) g, (forall y r, In y (x :: l) -> eR y = Fin r -> P r) -> gaps x l = Ok g -> Forall (iv_ends P) g.
  Proof.
    intros P. induction l as [|y l IH]; intros x g Hp H; cbn [gaps] in H; inv_bind H.
    - injection H as <-. constructor; [|constructor]. apply Interval_ends in E. destruct E as (E1 & E2). intros q. rewrite E1, E2. intros [K|K]; [|discriminate]. apply (Hp x); auto. now left.
    - inv_bind H. injection H as <-. constructor.
      + apply Interval_ends in E. destruct E as (E1 & E2). intros q. rewrite E1, E2. intros [K|K]; [apply (Hp x)|apply (Hp y)]; auto; [now left|right; now left].
      + apply (IH y); auto. intros z q Hz. apply Hp. now right.
  Qed.
  Lemma int_fits : forall x (i : interval N), nominal x = false -> iv_ends (cuts x) i -> fits x KInt (PB (BInt i)).
  Proof.
    intros x i En He. unfold TotalSets.fits. rewrite En. split; [discriminate|]. split; [exact I|]. split; [reflexivity|]. split; [intros j [E|[]]; injection E as <-; auto|intros vs y r [E|[]]; discriminate].
  Qed.
  Definition lit_fits (x : string) (l : tr) : Prop := exists k v, l = EBasic k (TId x) v /\ fits x k v.
  Lemma ints_or : forall x (is : list (interval N)), nominal x = false -> is <> [] -> Forall (iv_ends (cuts x)) is ->
    exists n, (do es <- mapM (fun a => EventInterval (TId x) (PB a)) (map BInt is); EventOr es) = Ok n /\ Forall (lit_fits x) (lits n).
  Proof.
    intros x is En Ne F.
    assert (mapM (fun a => EventInterval (TId x) (PB a)) (map BInt is) = Ok (map (fun i => EBasic KInt (TId x) (PB (BInt i))) is)) as ->.
    { clear -is. induction is as [|i l IH]; [reflexivity|]. cbn [map mapM]. rewrite IH. reflexivity. }
    cbn [bind]. unfold EventOr, compound_ok. replace (forallb is_event _) with true. 2: { symmetry. apply forallb_forall. intros e He. apply in_map_iff in He. destruct He as (i & <- & _). reflexivity. }
    cbn [passert bind]. destruct is as [|i l]; [tauto|]. cbn [map]. eexists. split; [reflexivity|]. cbn [lits]. apply lits_list. apply Forall_forall. intros e He.
    change (In e (map (fun i => EBasic KInt (TId x) (PB (BInt i))) (i :: l))) in He. apply in_map_iff in He. destruct He as (j & <- & Hj). rewrite Forall_forall in F. cbn [lits]. constructor; [|constructor]. exists KInt, (PB (BInt j)). split; auto. apply int_fits; auto.
  Qed.
  Lemma flat_BInt : forall is : list (interval N), flat_map opt_list (map (fun i => PB (BInt i)) is) = map BInt is.
  Proof. induction is as [|i l IH]; [reflexivity|]. cbn. now rewrite IH. Qed.
  Lemma not_lit : forall x k v, cmp x (EBasic k (TId x) v) -> v <> PEmpty -> exists n, inv_basic io k (TId x) v = Ok n /\ Forall (lit_fits x) (lits n).
  Proof.
    intros x k v (G & k1 & v1 & E & F) Ne. injection E as <- <-. pose proof (gev_wf _ _ _ G) as (_ & W & K & _). destruct (nominal x) eqn:En.
    - unfold TotalSets.fits in F. rewrite En in F. destruct F as [F|F]; [tauto|]. destruct v as [|[vs f| |]|]; try contradiction. destruct (pinv_nom_ok io vs f W) as (r & Er & _ & Sh & _).
      destruct k; [destruct K; discriminate|destruct K as [K|(ws & K)]; discriminate|]. unfold inv_basic. rewrite Er. cbn [bind].
      assert (Fr : fits x KNom r) by (unfold TotalSets.fits; rewrite En; destruct r as [|[]|]; simpl; tauto).
      destruct r as [|[]|]; try contradiction; cbn [EventFiniteNominal]; eexists; (split; [reflexivity|]); cbn [lits]; (constructor; [|constructor]); eexists; eexists; (split; [reflexivity|exact Fr]).
    - pose proof F as F0. unfold TotalSets.fits in F. rewrite En in F. destruct F as (Nk & R & Hi & He & Hv). destruct k; [| |tauto].
      + destruct K as (i & ->). unfold inv_basic. cbn [pinv inv_b]. destruct (inv_iv_ok io i W) as (r & Er & _). rewrite Er. cbn [bind]. specialize (He i ltac:(now left)). unfold inv_iv in Er.
        destruct (is_ninf (iv_a i)), (is_pinf (iv_b i)).
        * injection Er as <-. cbn [EventFiniteReal]. eexists. split; [reflexivity|]. cbn [lits]. constructor; [|constructor]. exists KReal, PEmpty. split; auto. unfold TotalSets.fits. rewrite En. split; [discriminate|]. split; [exact I|]. split; [reflexivity|]. split; [intros ? []|intros ? ? ? []].
        * inv_bind Er. injection Er as <-. apply Interval_ends in E. destruct E as (E1 & E2). cbn [EventInterval]. eexists. split; [reflexivity|]. cbn [lits]. constructor; [|constructor]. eexists _, _. split; [reflexivity|]. apply int_fits; auto. intros q. rewrite E1, E2. intros [Q|Q]; [|discriminate]. apply He. auto.
        * inv_bind Er. injection Er as <-. apply Interval_ends in E. destruct E as (E1 & E2). cbn [EventInterval]. eexists. split; [reflexivity|]. cbn [lits]. constructor; [|constructor]. eexists _, _. split; [reflexivity|]. apply int_fits; auto. intros q. rewrite E1, E2. intros [Q|Q]; [discriminate|]. apply He. auto.
        * inv_bind Er. inv_bind Er. apply Interval_ends in E, E0. destruct E as (E1 & E2), E0 as (E3 & E4). apply Union_inv in Er. destruct Er as (-> & _). cbn [flat_map opt_list app EventInterval bind]. unfold EventOr, compound_ok. cbn [forallb is_event andb passert bind]. eexists. split; [reflexivity|]. cbn [lits map List.concat app].
          constructor; [|constructor; [|constructor]]; eexists _, _; (split; [reflexivity|]); apply int_fits; auto; intros q; rewrite ?E1, ?E2, ?E3, ?E4; intros [Q|Q]; try discriminate; apply He; auto.
      + destruct K as [-> |(vs & ->)]; [tauto|]. cbn [hasinf] in Hi.
        assert (Fi : all_fin vs).
        { apply Forall_forall. intros y Hy. destruct y; try apply ord_Fin; exfalso; assert (existsb is_inf vs = true) by (apply existsb_exists; eexists; split; [exact Hy|reflexivity]); congruence. }
        destruct (inv_real_ok io vs W Fi) as (r & Er & _). unfold inv_basic. cbn [pinv inv_b]. rewrite Er. cbn [bind]. unfold inv_real in Er. pose proof (sort_perm eleb vs) as P. destruct (sort eleb vs) as [|y l]; [discriminate|]. inv_bind Er. inv_bind Er.
        apply Union_inv in Er. destruct Er as (-> & _).
        assert (Cv : forall z q, In z (y :: l) -> eR z = Fin q -> cuts x q).
        { intros z q Hz Eq. apply (Permutation_in _ (Permutation_sym P)) in Hz. destruct (Hv vs z q) as [Q|[]]; auto. now left. }
        change (map (fun i => PB (BInt i)) (r0 :: r1)) with (map (fun i : interval N => PB (BInt i)) (r0 :: r1)). rewrite flat_BInt. cbn [peqb Reals].
        apply (ints_or x (r0 :: r1)); auto; [discriminate|]. constructor; [|apply (gaps_ends (cuts x) l y); auto].
        apply Interval_ends in E. destruct E as (E1 & E2). intros q. rewrite E1, E2. intros [Q|Q]; [discriminate|]. apply (Cv y); auto. now left.
  Qed.
  Lemma lit_fits_cmps : forall x n, gev n -> Forall (lit_fits x) (lits n) -> cmps n.
  Proof.
    intros x n G F. split; auto. pose proof (gev_lits _ G) as Gl. rewrite Forall_forall in *. intros l Hl. exists x. split; [now apply Gl|]. exact (F l Hl).
  Qed.
  Lemma not_cmp : forall x a, cmp x a -> nonvoid a -> exists n, ev_not io a = Ok n /\ cmps n.
  Proof.
    intros x a C Nv. pose proof C as (G & k & v & -> & F). destruct (not_lit x k v C) as (n & En & Fn). { intros ->. exact Nv. }
    exists n. split; [exact En|]. apply (lit_fits_cmps x); auto. now apply (ev_not_ok io (EBasic k (TId x) v) n).
  Qed.
End Not.

(** ** Counting truth values *)
Section Measure.
  Context (tests : list (asg -> Prop)) (ok : asg -> Prop).
  Definition vec (w : asg) : list bool := map (fun t : asg -> Prop => if dec (t w) then true else false) tests.
  Fixpoint vecs (n : nat) : list (list bool) := match n with O => [[]] | S n => map (cons true) (vecs n) ++ map (cons false) (vecs n) end.
  Lemma in_vecs : forall l, In l (vecs (List.length l)).
  Proof. induction l as [|b l IH]; [now left|]. cbn [List.length vecs]. apply in_or_app. destruct b; [left|right]; now apply in_map. Qed.
  Lemma vecs_length : forall n, List.length (vecs n) = (2 ^ n)%nat.
  Proof. induction n as [|n IH]; [reflexivity|]. cbn [vecs]. rewrite app_length, !map_length, IH. simpl. lia. Qed.
  Definition reach (F : asg -> Prop) (v : list bool) : bool := if dec (exists w, ok w /\ F w /\ vec w = v) then true else false.
  Definition mu (F : asg -> Prop) : nat := List.length (filter (reach F) (vecs (List.length tests))).
  Lemma filter_le : forall A (f g : A -> bool) l, (forall x, f x = true -> g x = true) -> (List.length (filter f l) <= List.length (filter g l))%nat.
  Proof.
    intros A f g l H. induction l as [|a l IH]; [auto|]. cbn [filter]. destruct (f a) eqn:Ef; [rewrite (H a Ef); simpl; lia|]. destruct (g a); simpl; lia.
  Qed.
  Lemma filter_lt : forall A (f g : A -> bool) l z, (forall x, f x = true -> g x = true) -> In z l -> f z = false -> g z = true -> (List.length (filter f l) < List.length (filter g l))%nat.
  Proof.
    intros A f g l z H. induction l as [|a l IH]; intros Hz Fz Gz; [destruct Hz|]. cbn [filter]. destruct Hz as [->|Hz].
    - rewrite Fz, Gz. simpl. pose proof (filter_le A f g l H). lia.
    - specialize (IH Hz Fz Gz). destruct (f a) eqn:Ef; [rewrite (H a Ef); simpl; lia|]. destruct (g a); simpl; lia.
  Qed.
  Lemma reach_true : forall F v, reach F v = true <-> exists w, ok w /\ F w /\ vec w = v.
  Proof. intros F v. unfold reach. destruct (dec _); split; auto; discriminate. Qed.
  Lemma mu_bound : forall F, (mu F <= 2 ^ List.length tests)%nat.
  Proof. intros F. unfold mu. rewrite <- vecs_length. induction (vecs _) as [|a l IH]; [auto|]. cbn [filter]. destruct (reach F a); simpl; lia. Qed.
  Definition alike (w w' : asg) : Prop := forall t, In t tests -> (t w <-> t w').
  Lemma vec_alike : forall w w', vec w = vec w' -> alike w w'.
  Proof.
    unfold vec, alike. induction tests as [|t l IH]; intros w w' H s Hs; [destruct Hs|]. cbn [map] in H. injection H as H1 H2. destruct Hs as [<-|Hs]; [|now apply IH].
    destruct (dec (t w)), (dec (t w')); try discriminate; tauto.
  Qed.
  Lemma mu_le : forall F G : asg -> Prop, (forall w, ok w -> F w -> G w) -> (mu F <= mu G)%nat.
  Proof. intros F G H. apply filter_le. intros v. rewrite !reach_true. intros (w & A & B & C). eauto. Qed.
  Lemma mu_lt : forall (F G : asg -> Prop) w0, (forall w, ok w -> F w -> G w) -> ok w0 -> G w0 -> (forall w, ok w -> alike w0 w -> ~ F w) -> (mu F < mu G)%nat.
  Proof.
    intros F G w0 H O Gw Nf. apply (filter_lt _ _ _ _ (vec w0)).
    - intros v. rewrite !reach_true. intros (w & A & B & C). eauto.
    - replace (List.length tests) with (List.length (vec w0)) by apply map_length. apply in_vecs.
    - destruct (reach F (vec w0)) eqn:E; auto. apply reach_true in E. destruct E as (w & A & B & C). exfalso. apply (Nf w A); auto. apply vec_alike. now symmetry.
    - apply reach_true. eauto.
  Qed.
End Measure.

Section Union.
  Context {N : numsys} (io : iterorder N) (po : polyoracle N) (fuel : nat) (nominal : string -> bool) (cuts : string -> R -> Prop).
  Notation pset := (pset N).
  Notation tr := (tr N).
  Notation cmp := (cmp (N:=N) nominal cuts no_points).
  Notation cmps := (cmps (N:=N) nominal cuts no_points).
  Notation sat := (sorted_asg nominal).
  Context (tests : list (asg -> Prop)).
  Notation alike := (alike tests).
  Definition is_below (x : string) (r : R) (w : asg) : Prop := exists q, w x = FNum q /\ q < r.
  Definition is_at (x : string) (r : R) (w : asg) : Prop := w x = FNum r.
  Context (Grid : forall x r, nominal x = false -> cuts x r -> In (is_below x r) tests /\ In (is_at x r) tests).

  (** *** Literals that the tests decide *)
  Definition firm (e : tr) : Prop := forall w w', sat w -> sat w' -> alike w w' -> holds e w -> holds e w'.
  Lemma alike_sym : forall w w', alike w w' -> alike w' w.
  Proof. intros w w' A t Ht. symmetry. now apply A. Qed.
  Lemma cmp_holds : forall x k v w, cmp x (EBasic k (TId x) v) -> (holds (EBasic k (TId x) v) w <-> fm (w x) v).
  Proof. intros x k v w (G & _). rewrite (holds_gev k (TId x) v w G). cbn [teval]. split; [intros (y & [= <-] & H); auto|eauto]. Qed.
  Lemma grid_firm : forall x a, nominal x = false -> cmp x a -> firm a.
  Proof.
    intros x a En C w w' Sw Sw' A. pose proof C as (G & k & v & -> & F). rewrite !(cmp_holds x k v _ C). pose proof (fits_inffree nominal cuts no_points x k v G F En) as (Rv & If).
    unfold TotalSets.fits in F. rewrite En in F. destruct F as (Nk & _ & _ & He & Hv). pose proof (gev_wf _ _ _ G) as (_ & W & K & _).
    pose proof (Sw x) as Sx. pose proof (Sw' x) as Sx'. destruct (w x) as [q|] eqn:Eq; [|congruence]. destruct (w' x) as [q'|] eqn:Eq'; [|congruence].
    assert (B : forall r, cuts x r -> (q < r <-> q' < r) /\ (q = r <-> q' = r)).
    { intros r Hr. destruct (Grid x r En Hr) as (T1 & T2). specialize (A _ T1) as A1. specialize (A _ T2) as A2. unfold is_below in A1. unfold is_at in A2. rewrite Eq, Eq' in *. split.
      - split; intros L; [destruct A1 as (A1 & _)|destruct A1 as (_ & A1)]; (destruct A1 as (z & Ez & Lz); [eauto|]); injection Ez as <-; auto.
      - split; intros <-; [destruct A2 as (A2 & _)|destruct A2 as (_ & A2)]; specialize (A2 eq_refl); congruence. }
    destruct k; [| |tauto].
    - destruct K as (i & ->). rewrite !iv_fm. specialize (He i ltac:(now left)). intros (La & Lb). unfold above, below in *. split.
      + destruct (iv_a i) as [|c|] eqn:Ea; auto. destruct (B (toR c)) as (B1 & B2); [apply He; rewrite Ea; auto|]. destruct (iv_lo i); lra.
      + destruct (iv_b i) as [|c|] eqn:Eb; auto. destruct (B (toR c)) as (B1 & B2); [apply He; rewrite Eb; auto|]. destruct (iv_ro i); lra.
    - destruct K as [-> |(vs & ->)]; [intros []|]. rewrite !BReal_fm. intros Hq. apply in_map_iff in Hq. destruct Hq as (y & Ey & Hy). destruct (Hv vs y q ltac:(now left) Hy Ey) as [Cq|[]]. destruct (B q Cq) as (_ & B2). rewrite (proj1 B2 eq_refl). rewrite <- Ey. now apply in_map.
  Qed.

  Definition kept1 (l : tr) : Prop := (exists x, cmp x l) /\ firm l.
  Definition kept (e : tr) : Prop := gev e /\ Forall kept1 (lits e).
  Lemma kept_cmps : forall e, kept e -> cmps e.
  Proof. intros e (G & F). split; auto. eapply Forall_impl; [|exact F]. intros a (K & _). exact K. Qed.
  Lemma kept_firm : forall e, kept e -> firm e.
  Proof.
    intros e (G & F). revert G F. induction e using tr_ind'; intros G F; try (destruct G as (_ & G); discriminate G).
    - cbn [lits] in F. inversion F as [|? ? (_ & K) _]; subst. exact K.
    - apply gev_or in G. destruct G as (_ & G). cbn [lits] in F. apply lits_list in F. rewrite Forall_forall in *. intros w w' S1 S2 A. rewrite !holds_or. intros (a & Ha & Hh). exists a. split; auto. apply (H a Ha (G a Ha) (F a Ha) w w'); auto.
    - apply gev_and in G. destruct G as (_ & G). cbn [lits] in F. apply lits_list in F. rewrite Forall_forall in *. intros w w' S1 S2 A. rewrite !holds_and. intros Hh a Ha. apply (H a Ha (G a Ha) (F a Ha) w w'); auto.
  Qed.
  Lemma merge_and_kept : forall k s v j t u r y, kept1 (EBasic k s v) -> kept1 (EBasic j t u) -> teqb t s = true -> pand io v u = Ok r -> event_of_set s r = Some y -> kept1 y.
  Proof.
    intros k s v j t u r y ((x1 & C1) & F1) ((x2 & C2) & F2) Et Hr Hy.
    assert (E : ev_and io (EBasic k s v) (EBasic j t u) = Ok y) by (cbn [ev_and]; rewrite Et, Hr; cbn [bind]; now rewrite Hy).
    destruct (ev_and_ok io _ _ _ (proj1 C1) (proj1 C2) E) as (Gy & Hh). split.
    - exists x1. pose proof C1 as (_ & k1 & v1 & E1 & _). pose proof C2 as (_ & k2 & v2 & E2 & _). injection E1 as <- -> <-. injection E2 as <- -> <-. cbn in Et. apply String.eqb_eq in Et. subst x2. exact (merge_and io nominal cuts no_points x1 k v j u r y C1 C2 Hr Hy).
    - intros w w' S1 S2 A. rewrite !Hh. intros (A1 & A2). split; [apply (F1 w w')|apply (F2 w w')]; auto.
  Qed.
  Lemma merge_or_kept : forall k s v j t u r y, kept1 (EBasic k s v) -> kept1 (EBasic j t u) -> teqb t s = true -> por io v u = Ok r -> event_of_set s r = Some y -> kept1 y.
  Proof.
    intros k s v j t u r y ((x1 & C1) & F1) ((x2 & C2) & F2) Et Hr Hy.
    assert (E : ev_or io (EBasic k s v) (EBasic j t u) = Ok y) by (cbn [ev_or]; rewrite Et, Hr; cbn [bind]; now rewrite Hy).
    destruct (ev_or_ok io _ _ _ (proj1 C1) (proj1 C2) E) as (Gy & Hh). split.
    - exists x1. pose proof C1 as (_ & k1 & v1 & E1 & _). pose proof C2 as (_ & k2 & v2 & E2 & _). injection E1 as <- -> <-. injection E2 as <- -> <-. cbn in Et. apply String.eqb_eq in Et. subst x2. exact (merge_or io nominal cuts no_points x1 k v j u r y C1 C2 Hr Hy).
    - intros w w' S1 S2 A. rewrite !Hh. intros [A1|A1]; [left; apply (F1 w w')|right; apply (F2 w w')]; auto.
  Qed.
  Lemma and_kept : forall a b, kept a -> kept b -> exists c, ev_and io a b = Ok c /\ kept c.
  Proof.
    intros a b Ka Kb. destruct (and_total io nominal cuts no_points a b (kept_cmps a Ka) (kept_cmps b Kb)) as (c & E & (Gc & _)). exists c. split; auto. split; auto.
    apply (ev_and_lits io kept1 a b c E); [exact merge_and_kept|apply Ka|apply Kb].
  Qed.
  Lemma or_kept : forall a b, kept a -> kept b -> exists c, ev_or io a b = Ok c /\ kept c.
  Proof.
    intros a b Ka Kb. destruct (or_total io nominal cuts no_points a b (kept_cmps a Ka) (kept_cmps b Kb)) as (c & E & (Gc & _)). exists c. split; auto. split; auto.
    apply (ev_or_lits io kept1 a b c E); [exact merge_or_kept|apply Ka|apply Kb].
  Qed.
  Lemma reduce_kept : forall (op : tr -> tr -> res tr), (forall a b, kept a -> kept b -> exists c, op a b = Ok c /\ kept c) ->
    forall l, l <> [] -> Forall kept l -> exists c, reduceM op l = Ok c /\ kept c.
  Proof.
    intros op Hop [|a l] Ne F; [tauto|]. clear Ne. inversion F as [|? ? Ca Fl]; subst. cbn [reduceM]. clear F. revert a Ca. induction Fl as [|b l Cb Fl IH]; intros a Ca; cbn [foldM]; [eauto|].
    destruct (Hop a b Ca Cb) as (c & -> & Cc). cbn [bind]. auto.
  Qed.
  Lemma lit_kept : forall a, kept1 a -> kept a.
  Proof. intros a K. pose proof K as ((x & G & k & v & -> & _) & _). split; auto. cbn [lits]. auto. Qed.

  (** *** Complements *)
  Lemma cmp_sorted : forall x a, cmp x a -> nonvoid a -> sorted nominal a.
  Proof.
    intros x a (G & k & v & -> & F) Nv. unfold sorted. cbn [lits]. constructor; [|constructor]. exists k, x, v. split; auto. pose proof (gev_wf _ _ _ G) as (_ & _ & K & _).
    assert (Ne : v <> PEmpty) by (intros ->; exact Nv). split; auto. unfold TotalSets.fits in F. destruct (nominal x).
    - destruct F as [F|F]; [tauto|]. split; auto. intros _. destruct k; auto; [destruct K as (i & ->)|destruct K as [-> |(vs & ->)]]; try tauto; destruct F.
    - destruct F as (Nk & _). split; [tauto|discriminate].
  Qed.
  Lemma not_lit_kept : forall a, kept1 a -> nonvoid a -> exists n, ev_not io a = Ok n /\ kept n.
  Proof.
    intros a ((x & C) & F) Nv. destruct (not_cmp io nominal cuts x a C Nv) as (n & En & (Gn & Fn)). exists n. split; auto. split; auto.
    destruct (nominal x) eqn:Ex.
    - pose proof C as (G & k & v & -> & Fv). pose proof (not_lit io nominal cuts x k v C ltac:(intros ->; exact Nv)) as (n' & En' & Ln). cbn [ev_not] in En. assert (n' = n) by congruence. subst n'.
      unfold TotalSets.fits in Fv. rewrite Ex in Fv. pose proof (gev_wf _ _ _ G) as (_ & _ & K & _).
      assert (k = KNom). { destruct k; auto; [destruct K as (i & ->)|destruct K as [-> |(vs & ->)]]; try (destruct Nv; fail); destruct Fv as [Fv|Fv]; try discriminate; destruct Fv. }
      subst k. assert (exists u, n = EBasic KNom (TId x) u) as (u & ->).
      { unfold inv_basic in En. inv_bind En. destruct r as [|[]|]; try discriminate En; injection En as <-; eauto. }
      destruct (ev_not_ok io (EBasic KNom (TId x) v) _ G En) as (_ & Hh). cbn [lits] in *. constructor; [|constructor]. split; [now inversion Fn|]. intros w w' S1 S2 A. rewrite !Hh. intros Hf.
      destruct (sorted_defined nominal (EBasic KNom (TId x) v) w' G) as [K1|K1]; auto; [apply (cmp_sorted x); auto|]. exfalso. assert (K2 : holds (EBasic KNom (TId x) v) w) by (apply (F w' w); auto using alike_sym).
      unfold holds, fails, one, zero in *. rewrite K2 in Hf. injection Hf as Hf. lra.
    - (* numbers *)
      assert (Fx : Forall (fun l => cmp x l) (lits n)).
      { pose proof C as (G & k & v & -> & Fv). pose proof (not_lit io nominal cuts x k v C ltac:(intros ->; exact Nv)) as (n' & En' & Ln). cbn [ev_not] in En. assert (n' = n) by congruence. subst n'. pose proof (gev_lits _ Gn) as Gl. rewrite Forall_forall in *. intros l Hl. split; [now apply Gl|]. exact (Ln l Hl). }
      eapply Forall_impl; [|exact Fx]. intros l Cl. split; [eauto|]. now apply (grid_firm x).
  Qed.

  Definition lively (e : tr) : Prop := exists w, sat w /\ holds e w.
  Lemma holds_nonvoid : forall a w, kept1 a -> holds a w -> nonvoid a.
  Proof. intros a w ((x & C) & _) H. pose proof C as (_ & k & v & -> & _). rewrite (cmp_holds x k v w C) in H. destruct v; [destruct H|exact I|exact I]. Qed.
  Lemma clause_kept : forall c, kept c -> is_clause c -> kept1 c \/ exists l, c = EAnd l /\ l <> [] /\ Forall kept1 l.
  Proof.
    intros c (G & F) [L|(l & -> & Ne & L)].
    - left. destruct c; try discriminate L. cbn [lits] in F. now inversion F.
    - right. exists l. split; auto. split; auto. cbn [lits] in F. apply lits_list in F. rewrite Forall_forall in *. intros a Ha. specialize (F a Ha). specialize (L a Ha). rewrite (basic_lits a L) in F. now inversion F.
  Qed.
  Lemma not_clause : forall c, kept c -> is_clause c -> lively c -> exists n, ev_not io c = Ok n /\ kept n.
  Proof.
    intros c K Cc (w & _ & Hw). destruct (clause_kept c K Cc) as [K1|(l & -> & Ne & Fl)]; [apply not_lit_kept; auto; now apply (holds_nonvoid c w)|].
    cbn [ev_not]. rewrite holds_and in Hw.
    assert (exists ns, mapM (ev_not io) l = Ok ns /\ Forall kept ns /\ List.length ns = List.length l) as (ns & -> & Fn & L).
    { clear Ne K Cc. induction Fl as [|a l Ka Fl IH]; [exists []; split; [reflexivity|split; [constructor|reflexivity]]|]. destruct IH as (ns & E & F & L); [intros e He; apply Hw; now right|].
      destruct (not_lit_kept a Ka) as (n & En & Kn); [apply (holds_nonvoid a w Ka); apply Hw; now left|]. exists (n :: ns). cbn [mapM]. rewrite En. cbn [bind]. rewrite E. cbn [bind]. split; [reflexivity|]. split; [auto|simpl; congruence]. }
    cbn [bind]. apply (reduce_kept (ev_or io) or_kept); auto. intros ->. destruct l; [tauto|discriminate].
  Qed.
  Lemma cascade_kept : forall p, kept (fst p) -> Forall (fun c => kept c /\ is_clause c /\ lively c) (snd p) -> exists c, cascade io p = Ok c /\ kept c.
  Proof.
    intros (a, o). cbn [fst snd]. unfold cascade. cbn [fst snd]. intros Ka F. revert a Ka. induction F as [|c o (Kc & Cc & Lc) F IH]; intros a Ka; cbn [foldM]; [eauto|].
    destruct (not_clause c Kc Cc Lc) as (n & -> & Kn). cbn [bind]. destruct (and_kept a n Ka Kn) as (d & -> & Kd). cbn [bind]. auto.
  Qed.

  (** *** Solutions of clauses that can hold *)
  Lemma member : forall x k v, cmp x (EBasic k (TId x) v) -> v <> PEmpty -> exists u, fm u v /\ sort1 nominal x u.
  Proof.
    intros x k v (G & k1 & v1 & E & F) Ne. injection E as <- <-. pose proof (gev_wf _ _ _ G) as (_ & W & _). destruct (nonempty_mem v W Ne) as (y & Hy). destruct (nominal x) eqn:En.
    - unfold TotalSets.fits in F. rewrite En in F. destruct F as [F|F]; [tauto|]. destruct v as [|[]|]; try contradiction. destruct y as [y|s]; [destruct Hy|]. exists (FStr s). split; [exact Hy|exact En].
    - destruct (fits_inffree nominal cuts no_points x k v G F En) as (R & If). destruct y as [y|s]; [|exfalso; exact (fm_str_real v s R Hy)]. destruct (If y Hy) as (r & ->). exists (FNum r). split; [exact Hy|exact En].
  Qed.
  Definition default (x : string) : fval := if nominal x then FStr "" else FNum 0.
  Lemma default_sorted : sat default.
  Proof. intros x. unfold default. destruct (nominal x) eqn:E; auto. Qed.
  Lemma upd_sorted : forall w x u, sat w -> sort1 nominal x u -> sat (upd w x u).
  Proof. intros w x u S H y. unfold upd. destruct (String.eqb_spec x y) as [<-|]; [exact H|apply S]. Qed.
  Definition members (c : list (string * pset)) : Prop := Forall (fun p => exists u, fm u (snd p) /\ sort1 nominal (fst p) u) c.
  (** an assignment from members of the sets, given for the first ones *)
  Lemma choose : forall c w, members c -> NoDup (map fst c) -> sat w -> exists w', sat w' /\ sol_holds c w' /\ forall x, ~ In x (map fst c) -> w' x = w x.
  Proof.
    induction c as [|(x, v) c IH]; intros w F Nd S; [exists w; split; auto; split; auto; intros ? ? []|]. inversion F as [|? ? (u & Hu & Su) F']; subst. cbn [map fst snd] in *. inversion Nd as [|? ? Nx Nd']; subst.
    destruct (IH (upd w x u) F' Nd' (upd_sorted w x u S Su)) as (w' & S' & H' & K'). exists w'. split; auto. split.
    - apply sol_holds_cons. split; auto. rewrite K' by auto. unfold upd. now rewrite String.eqb_refl.
    - intros y Hy. cbn in Hy. rewrite K' by tauto. unfold upd. destruct (String.eqb_spec x y); [subst; tauto|reflexivity].
  Qed.
  Notation csol := (csol (N:=N) nominal cuts no_points).
  Definition full (c : list (string * pset)) : Prop := csol c /\ NoDup (map fst c) /\ all_nonempty c = true.
  Lemma full_members : forall c, full c -> members c.
  Proof.
    intros c ((_ & F) & _ & A). unfold all_nonempty in A. rewrite forallb_forall in A. unfold members. rewrite Forall_forall in *. intros p Hp. destruct (F p Hp) as (k & C). apply (member (fst p) k); auto. specialize (A p Hp). intros E. rewrite E in A. discriminate A.
  Qed.
  Lemma csol_wf : forall c, csol c -> Forall (fun q => wf (snd q)) c.
  Proof. intros c (_ & F). eapply Forall_impl; [|exact F]. intros p (k & (G & _)). now apply gev_wf in G. Qed.
  Lemma full_lively : forall c e, full c -> (forall w, sol_holds c w <-> holds e w) -> lively e.
  Proof.
    intros c e Fc H. destruct (choose c default (full_members c Fc)) as (w & S & Hw & _); [apply Fc|exact default_sorted|]. exists w. split; auto. now apply H.
  Qed.
  Lemma lookup_In : forall (c : list (string * pset)) s u, lookup s c = Some u -> In (s, u) c.
  Proof. induction c as [|(y, z) c IH]; intros s u H; simpl in H; [discriminate|]. destruct (String.eqb_spec s y); [injection H as ->; left; now subst|right; auto]. Qed.
  Lemma lookup_None : forall (c : list (string * pset)) s, lookup s c = None -> ~ In s (map fst c).
  Proof. induction c as [|(y, z) c IH]; intros s H; [tauto|]. simpl in H. destruct (String.eqb_spec s y); [discriminate|]. simpl. intros [E|E]; [congruence|now apply (IH s)]. Qed.
  Lemma lookup_NoDup : forall (c : list (string * pset)) s u, NoDup (map fst c) -> In (s, u) c -> lookup s c = Some u.
  Proof.
    induction c as [|(y, z) c IH]; intros s u Nd H; [destruct H|]. cbn [map fst] in Nd. inversion Nd as [|? ? Ny Nd']; subst. cbn [lookup]. destruct (String.eqb_spec s y) as [->|Ns].
    - destruct H as [E|H]; [congruence|]. exfalso. apply Ny. now apply (in_map fst) in H.
    - destruct H as [E|H]; [congruence|]. auto.
  Qed.
  (** Two solutions are compared; if no common variable rules it out they hold together. *)
  Lemma overlap_total : forall ci cj, csol ci -> csol cj -> exists b, overlap_any io ci cj = Ok b /\
    (b = false -> Forall (fun p => exists u, fm u (snd p) /\ sort1 nominal (fst p) u /\ (forall v, In (fst p, v) cj -> NoDup (map fst cj) -> fm u v)) ci).
  Proof.
    intros ci cj (_ & Fi) (_ & Fj). induction Fi as [|(s, v) ci (k & C) Fi IH]; cbn [overlap_any]; [exists false; split; auto|]. cbn [fst snd] in C. pose proof (gev_wf _ _ _ (proj1 C)) as (_ & W & _).
    assert (exists x, (match lookup s cj with Some w => pand io v w | None => Ok v end) = Ok x /\ (x <> PEmpty -> exists u, fm u v /\ sort1 nominal s u /\ (forall z, In (s, z) cj -> NoDup (map fst cj) -> fm u z))) as (x & -> & Hx).
    { destruct (lookup s cj) as [z|] eqn:El.
      - apply lookup_In in El as Iz. rewrite Forall_forall in Fj. destruct (Fj _ Iz) as (j & Cz). cbn [fst snd] in Cz. pose proof (gev_wf _ _ _ (proj1 Cz)) as (_ & Wz & _).
        destruct (and_total io nominal cuts no_points (EBasic k (TId s) v) (EBasic j (TId s) z)) as (c & Ec & Cc); [split; [apply C|cbn [lits]; eauto]|split; [apply Cz|cbn [lits]; eauto]|].
        pose proof (and_cmp io nominal cuts no_points s _ _ c C Cz Ec) as Cc'. cbn [ev_and teqb] in Ec. rewrite String.eqb_refl in Ec. inv_bind Ec. exists r. split; auto. intros Nr.
        pose proof Cc' as (Gc & kc & vc & -> & _). destruct (event_of_set (TId s) r) as [y|] eqn:Ey.
        2: { exfalso. apply EventAnd_shape in Ec. discriminate Ec. }
        injection Ec as ->. destruct (event_of_set_shape _ _ _ Ey) as (l & El' & _). injection El' as -> ->. destruct (member s l r Cc' Nr) as (u & Hu & Su). destruct (pand_f io v z r W Wz E) as (_ & M & _). apply M in Hu. exists u. split; [tauto|]. split; auto. intros z' Hz' Nd. rewrite (lookup_NoDup cj s z' Nd Hz') in El. injection El as ->. tauto.
      - exists v. split; auto. intros Nv. destruct (member s k v C Nv) as (u & Hu & Su). exists u. split; auto. split; auto. intros z Hz _. exfalso. apply (lookup_None cj s El). now apply (in_map fst) in Hz. }
    cbn [bind]. destruct (is_empty x) eqn:Ee; [exists true; split; [auto|discriminate]|]. destruct IH as (b & Eb & Hb). exists b. split; auto. intros E. constructor; auto. cbn [fst snd]. apply Hx. intros ->. discriminate.
  Qed.
  Lemma overlap_lively : forall ci cj, full ci -> full cj -> exists b, overlap_any io ci cj = Ok b /\ (b = false -> exists w, sat w /\ sol_holds ci w /\ sol_holds cj w).
  Proof.
    intros ci cj Fi Fj. destruct (overlap_total ci cj (proj1 Fi) (proj1 Fj)) as (b & Eb & Hb). exists b. split; auto. intros Ef. specialize (Hb Ef).
    destruct (choose cj default (full_members cj Fj)) as (w0 & S0 & H0 & _); [apply Fj|exact default_sorted|].
    assert (K : forall c : list (string * pset), Forall (fun p => exists u, fm u (snd p) /\ sort1 nominal (fst p) u /\ (forall v, In (fst p, v) cj -> NoDup (map fst cj) -> fm u v)) c -> NoDup (map fst c) ->
      exists w, sat w /\ sol_holds c w /\ sol_holds cj w /\ forall x, ~ In x (map fst c) -> w x = w0 x).
    { clear Hb Fi ci Eb. induction c as [|(x, v) c IH]; intros F Nd; [exists w0; split; auto; split; [intros ? ? []|auto]|]. inversion F as [|? ? (u & Hu & Su & Ju) F']; subst. cbn [map fst snd] in *. inversion Nd as [|? ? Nx Nd']; subst.
      destruct (IH F' Nd') as (w & S & H & J & K). exists (upd w x u). split; [now apply upd_sorted|].
      assert (Same : forall y, y <> x -> upd w x u y = w y) by (intros y Ny; unfold upd; destruct (String.eqb_spec x y); congruence).
      split; [|split].
      - apply sol_holds_cons. split; [unfold upd; now rewrite String.eqb_refl|]. intros y z Hz. rewrite Same; [apply (H y z Hz)|]. intros ->. apply Nx. now apply (in_map fst) in Hz.
      - intros y z Hz. unfold upd. destruct (String.eqb_spec x y) as [<-|Ny]; [apply Ju; auto; apply Fj|now apply (J y)].
      - intros y Hy. cbn in Hy. rewrite Same by (intros ->; tauto). apply K. tauto. }
    destruct (K ci Hb) as (w & S & H & J & _); [apply Fi|]. eauto.
  Qed.
  (** an entry of the table that is built: a solution and its clause *)
  Definition full_entry (p : list (string * pset) * tr) : Prop := full (fst p) /\ forall w, sol_holds (fst p) w <-> holds (snd p) w.
  Definition meet (a b : tr) : Prop := exists w, sat w /\ holds a w /\ holds b w.
  Lemma overlaps_total : forall earlier cj e, Forall full_entry earlier -> full_entry (cj, e) -> exists o, overlaps io earlier cj = Ok o /\ Forall (fun x => meet x e) o.
  Proof.
    intros earlier cj e F (Fj & Hj). cbn [fst snd] in *. induction F as [|(ci, a) earlier (Fi & Hi) F IH]; cbn [overlaps]; [exists []; split; auto|]. cbn [fst snd] in *. destruct (overlap_lively ci cj Fi Fj) as (b & -> & Hb). cbn [bind]. destruct IH as (o & -> & Fo). cbn [bind].
    destruct b; eexists; (split; [reflexivity|]); auto. constructor; auto. destruct (Hb eq_refl) as (w & S & H1 & H2). exists w. split; auto. split; [now apply Hi|now apply Hj].
  Qed.
  Lemma overlap_table_total : forall l earlier, Forall full_entry earlier -> Forall full_entry l -> exists t, overlap_table io earlier l = Ok t /\ Forall (fun p => Forall (fun x => meet x (fst p)) (snd p)) t.
  Proof.
    induction l as [|(c, e) l IH]; intros earlier F Fl; cbn [overlap_table]; [exists []; split; auto|]. inversion Fl as [|? ? Fe Fl']; subst. destruct (overlaps_total earlier c e F Fe) as (o & -> & Fo). cbn [bind]. destruct (IH (earlier ++ [(c, e)])) as (t & -> & Ft); [apply Forall_app; auto|auto|]. cbn [bind]. eexists. split; [reflexivity|]. constructor; auto.
  Qed.
  Lemma solutions_total : forall d, cmps d -> is_dnf d -> exists f sols, dnf_factor io d = Ok f /\ mapM (solve_clause io po fuel) f = Ok sols /\
    Forall2 (fun a s => csol s /\ NoDup (map fst s) /\ forall w, sol_holds s w <-> holds a w) (clauses d) sols.
  Proof.
    intros d Cd Dd. pose proof (cmps_on_vars nominal cuts no_points d Cd) as O. destruct (C16_total io d (proj1 Cd) Dd O) as (f & Hf). pose proof (factor_cmp io nominal cuts no_points d f Cd Hf) as Ff.
    assert (exists sols, mapM (solve_clause io po fuel) f = Ok sols /\ Forall csol sols) as (sols & Es & Fs).
    { clear -Ff. induction Ff as [|c f Cc Ff IH]; [exists []; split; [reflexivity|constructor]|]. destruct IH as (s & E & F). destruct (solve_clause_total io po fuel nominal cuts no_points c Cc) as (x & Ex & Fx). exists (x :: s). cbn [mapM]. rewrite Ex. cbn [bind]. rewrite E. cbn [bind]. auto. }
    exists f, sols. split; auto. split; auto. pose proof (solutions_ok io po fuel d f sols (proj1 Cd) Hf Es) as K.
    assert (R : forall w, regular true d w) by (intros w; apply on_vars_regular; auto; apply Cd). clear -K Fs R. induction K as [|a s la ls (_ & _ & Nd & K) F IH]; constructor; inversion Fs; subst; auto. split; auto. split; auto. intros w. now apply (K w true).
  Qed.
  Lemma lively_full : forall s a, csol s -> NoDup (map fst s) -> (forall w, sol_holds s w <-> holds a w) -> lively a -> full s.
  Proof.
    intros s a C Nd H (w & _ & Hw). split; auto. split; auto. destruct (all_nonempty s) eqn:E; auto. exfalso. apply (not_all_nonempty s w E). now apply H.
  Qed.
  Lemma non_disjoint_total : forall l, kept (EOr l) -> is_dnf (EOr l) -> Forall lively l -> exists t, non_disjoint io po fuel l = Ok t /\ Forall (fun p => Forall (fun x => meet x (fst p)) (snd p)) t.
  Proof.
    intros l K Dl Fl. destruct (solutions_total (EOr l) (kept_cmps _ K) Dl) as (f & sols & Hf & Hs & F). cbn [clauses] in F. unfold non_disjoint. rewrite Hf. cbn [bind]. rewrite Hs. cbn [bind]. apply overlap_table_total; auto.
    clear -F Fl. induction F as [|a s la ls (C & Nd & H) F IH]; cbn [combine]; [constructor|]. inversion Fl; subst. constructor; auto. split; auto. apply (lively_full s a); auto.
  Qed.

  (** *** Normal forms *)
  Definition dsat (e : tr) : Prop := Forall (fun m => exists w, sat w /\ Forall (fun a => holds a w) m) (to_dnf_list e).
  Lemma conj_lits_hold : forall (e : tr) w, conjunctive e -> holds e w -> Forall (fun a => holds a w) (lits e).
  Proof.
    induction e using tr_ind'; intros w C H0; try (destruct C; fail).
    - cbn [lits]. auto.
    - cbn [lits]. apply lits_list. cbn [conjunctive] in C. rewrite holds_and in H0. rewrite Forall_forall in *. intros a Ha. apply H; auto. exact (TransFacts.All_In _ _ l a C Ha).
  Qed.
  Lemma conj_dsat : forall e, conjunctive e -> lively e -> dsat e.
  Proof.
    intros e C (w & S & H). apply Forall_forall. intros m Hm. exists w. split; auto. pose proof (conj_lits_hold e w C H) as F. rewrite Forall_forall in *. intros a Ha. apply F. now apply (to_dnf_list_lits e m).
  Qed.
  Lemma to_dnf_list_clauses : forall e : tr, to_dnf_list e = List.concat (map to_dnf_list (clauses e)).
  Proof. intros e. destruct e; cbn [clauses map List.concat]; rewrite ?app_nil_r; reflexivity. Qed.
  Lemma or_dsat : forall a b c, gev a -> gev b -> ev_or io a b = Ok c -> dsat a -> dsat b -> dsat c.
  Proof.
    intros a b c Ga Gb H Da Db. destruct (ev_or_ok io a b c Ga Gb H) as (Gc & Hh). destruct (ev_or_clauses io a b c H) as [Bc| ->].
    - assert (Ba : is_basic a = true).
      { destruct a; try (destruct Ga as (_ & Ga); discriminate Ga); auto; destruct b; try (destruct Gb as (_ & Gb); discriminate Gb); cbn [ev_or] in H; try discriminate H; apply EventOr_shape in H; subst c; discriminate Bc. }
      unfold dsat in *. destruct a; try discriminate Ba. cbn [to_dnf_list] in Da. inversion Da as [|? ? (w & S & Hw) _]; subst. inversion Hw; subst. destruct c; try discriminate Bc. cbn [to_dnf_list]. constructor; [|constructor]. exists w. split; auto. constructor; [|constructor]. apply Hh. auto.
    - unfold dsat in *. rewrite (to_dnf_list_clauses a) in Da. rewrite (to_dnf_list_clauses b) in Db. cbn [to_dnf_list]. rewrite map_app, concat_app. now apply Forall_app.
  Qed.
  Lemma reduce_dsat : forall l c, Forall (fun a => gev a /\ dsat a) l -> reduceM (ev_or io) l = Ok c -> dsat c.
  Proof.
    intros [|a l] c F H; cbn [reduceM] in H; [discriminate|]. inversion F as [|? ? (Ga & Da) Fl]; subst. clear F. revert a Ga Da H. induction Fl as [|b l (Gb & Db) Fl IH]; intros a Ga Da H; cbn [foldM] in H; [injection H as <-; auto|].
    inv_bind H. apply (IH r); auto; [now apply (ev_or_ok io a b)|now apply (or_dsat a b)].
  Qed.
  Lemma to_dnf_lively : forall e d, gev e -> dsat e -> to_dnf e = Ok d -> Forall lively (clauses d).
  Proof.
    intros e d G Dd H. unfold to_dnf in H. inv_bind H. destruct (to_dnf_list_ok e G) as (_ & F). apply mapM_Forall2 in E.
    assert (K : Forall (fun a => lively a /\ clauses a = [a]) r).
    { unfold dsat in Dd. clear H. induction E as [|m a lm la Ha E IH]; constructor; inversion Dd as [|? ? (w & S & Hw) Dd']; inversion F as [|? ? (Nm & Fm) F']; subst; auto.
      unfold simplify_event in Ha. destruct m as [|y [|z m]]; [tauto| |].
      - injection Ha as <-. inversion Hw; subst. inversion Fm as [|? ? (_ & By) _]; subst. split; [exists w; auto|]. destruct y; try discriminate By. reflexivity.
      - apply EventAnd_shape in Ha. subst a. split; [|reflexivity]. exists w. split; auto. apply holds_and. rewrite Forall_forall in Hw. exact Hw. }
    unfold simplify_event in H. destruct r as [|a [|b r]].
    - apply EventOr_shape in H. subst d. constructor.
    - injection H as <-. inversion K as [|? ? (La & Ca) _]; subst. rewrite Ca. auto.
    - apply EventOr_shape in H. subst d. cbn [clauses]. eapply Forall_impl; [|exact K]. intros x (L & _). exact L.
  Qed.
  Definition normal (x : tr) : Prop := kept x /\ is_dnf x /\ (one_clause x \/ Forall lively (clauses x)).
  Lemma keyed_merge_kept : forall d : tr, mergeable io (fun key e => keyed (self d) key e /\ kept1 e).
  Proof. intros d. apply keyed_merge. intros k s v j t u r x R1 R2 _ _ Et Hp Ex. exact (merge_and_kept k s v j t u r x R1 R2 Et Hp Ex). Qed.
  Definition ksol (c : list (string * pset)) : Prop := c <> [] /\ Forall (fun p => exists k, kept1 (EBasic k (TId (fst p)) (snd p)) /\ cmp (fst p) (EBasic k (TId (fst p)) (snd p))) c.
  Lemma ksol_csol : forall c, ksol c -> csol c.
  Proof. intros c (Ne & F). split; auto. eapply Forall_impl; [|exact F]. intros p (k & _ & C). eauto. Qed.
  Lemma conj_kept : forall c, ksol c -> all_nonempty c = true -> exists d, conj_of io c = Ok d /\ kept d /\ conjunctive d /\ forall w, holds d w <-> sol_holds c w.
  Proof.
    intros c K A. destruct (conj_total io nominal cuts no_points c (ksol_csol c K) A) as (d & Ed & Cd). exists d. split; auto. destruct (conj_of_ok io c d (csol_wf c (ksol_csol c K)) Ed) as (_ & Hh & _).
    assert (Kd : kept d /\ conjunctive d); [|tauto]. destruct K as (Ne & F). unfold conj_of, all_nonempty in *. rewrite forallb_forall in A.
    assert (exists es, mapM (fun p => t_in io (TId (fst p)) (snd p)) c = Ok es /\ Forall (fun e => kept e /\ conjunctive e) es) as (es & E & Fs).
    { clear Ne Ed Hh. induction F as [|(x, v) c (k & K1 & C) F IH]; [exists []; split; [reflexivity|constructor]|]. destruct IH as (es & E & Fs); [intros p Hp; apply A; now right|]. cbn [fst snd] in *. exists (EBasic k (TId x) v :: es). cbn [mapM fst snd].
      rewrite (t_in_cmp io nominal cuts no_points x k v C). 2: { specialize (A (x, v) ltac:(now left)). cbn [snd] in A. intros ->. discriminate. }
      cbn [bind]. rewrite E. cbn [bind]. split; [reflexivity|]. constructor; auto. split; [now apply lit_kept|exact Logic.I]. }
    rewrite E in Ed. cbn [bind] in Ed. split.
    - destruct (reduce_kept (ev_and io) and_kept es) as (d' & E' & K').
      + intros ->. discriminate.
      + eapply Forall_impl; [|exact Fs]. intros e (K & _). exact K.
      + congruence.
    - apply (reduce_conjunctive io es); auto. eapply Forall_impl; [|exact Fs]. intros e (_ & K). exact K.
  Qed.
  Lemma to_dnf_kept : forall e d, kept e -> to_dnf e = Ok d -> kept d /\ is_dnf d.
  Proof.
    intros e d (G & F) E. destruct (to_dnf_ok e G) as (d' & E' & Gd & Dd & _). rewrite E in E'. injection E' as <-. split; auto. split; auto. rewrite Forall_forall in *. intros a Ha. apply F. now apply (to_dnf_lits e d).
  Qed.
  Lemma normalize_kept : forall e, kept e -> exists o, dnf_normalize io po fuel e = Ok o /\
    match o with Some d => normal d /\ (forall w, holds d w <-> holds e w) | None => forall w, ~ holds e w end.
  Proof.
    intros e K. destruct (normalize_total io po fuel nominal cuts no_points e (kept_cmps e K)) as (o & Eo & _). exists o. split; auto.
    pose proof (dnf_normalize_ok io po fuel e o (proj1 K) Eo) as Ok'. assert (Reg : forall w, regular true e w) by (intros w; apply on_vars_regular; [apply K|apply (cmps_on_vars nominal cuts no_points); now apply kept_cmps]).
    destruct o as [d|]; [|intros w; apply (Ok' w true); auto]. destruct Ok' as (_ & _ & _ & Hh). split; [|intros w; now apply (Hh w true)]. clear Hh.
    destruct (dnf_normalize_cases io po fuel e) as [(k & x & v & -> & E)|E]; rewrite E in Eo; clear E.
    - injection Eo as <-. split; auto. split; [left; now left|left; now left].
    - unfold normalize_general in Eo. inv_bind Eo. rename r into d0. destruct (to_dnf_kept e d0 K E) as (K0 & D0). inv_bind Eo. rename r into f, E0 into Ef. inv_bind Eo. rename r into sols, E0 into Es.
      assert (Fk : Forall (fun c => cclause nominal cuts no_points c /\ Forall (fun p => kept1 (snd p)) c) f).
      { pose proof (factor_cmp io nominal cuts no_points d0 f (kept_cmps d0 K0) Ef) as Fc. pose proof (dnf_factor_with_ok io (self d0) kept1 d0 f (keyed_merge_kept d0) (proj1 K0) (proj2 K0) Ef) as Ff. clear -Fc Ff.
        induction Ff as [|a c la lc ((Fl & _) & _) Ff IH]; constructor; inversion Fc as [|? ? Cc Fc']; subst; auto. split; auto. destruct Cc as (_ & Cc). clear -Cc Fl. induction Fl as [|p c (_ & Fp) Fl IH]; constructor; inversion Cc as [|? ? (_ & k & v & E & _) Cc']; subst; auto.
        rewrite E in *. cbn [lits] in Fp. inversion Fp as [|? ? (_ & Kp) _]; subst. exact Kp. }
      assert (Fs : Forall ksol sols).
      { apply mapM_Forall2 in Es. clear -Es Fk. induction Es as [|c s f ls H Es IH]; constructor; inversion Fk as [|? ? ((Ne & Cc) & Kc) Fk']; subst; auto. apply solve_clause_shape in H. split; [intros ->; inversion H; subst; tauto|].
        clear Ne IH Es Fk Fk'. induction H as [|p q c s (Hk & Hv) H IH]; constructor; inversion Cc as [|? ? Cp Cc']; inversion Kc as [|? ? Kp Kc']; subst; auto. pose proof Cp as (_ & k & v & Ep & _). rewrite Ep in *. rewrite Hk. unfold solve in Hv. cbn [id_values] in Hv. injection Hv as <-. exists k. auto. }
      destruct (filter all_nonempty sols) as [|s0 sl] eqn:En; [discriminate|]. rewrite <- En in Eo.
      assert (Fu : Forall (fun c => ksol c /\ all_nonempty c = true /\ NoDup (map fst c)) (unseen [] (filter all_nonempty sols))).
      { pose proof (solutions_ok io po fuel d0 f sols (proj1 K0) Ef Es) as So. apply Forall_forall. intros c Hc. apply unseen_incl in Hc. apply filter_In in Hc. destruct Hc as (Hc & A). rewrite Forall_forall in Fs. split; auto. split; auto.
        destruct (Forall2_in_r _ _ _ _ _ _ So Hc) as (a & _ & _ & _ & Nd & _). exact Nd. }
      inv_bind Eo. rename r into cs, E0 into Ec. inv_bind Eo. rename r into g, E0 into Eg. inv_bind Eo. injection Eo as ->. rename E0 into Ed. apply mapM_Forall2 in Ec.
      assert (Fc : Forall (fun c => kept c /\ dsat c) cs).
      { clear -Ec Fu. induction Ec as [|s c ls lc H Ec IH]; constructor; inversion Fu as [|? ? (Ks & A & Nd) Fu']; subst; auto. destruct (conj_kept s Ks A) as (c' & E' & Kc & Cj & Hh). rewrite H in E'. injection E' as <-. split; auto. apply conj_dsat; auto.
        apply (full_lively s c); [split; [now apply ksol_csol|auto]|]. intros w. symmetry. apply Hh. }
      destruct (reduce_kept (ev_or io) or_kept cs) as (g' & Eg' & Kg).
      { intros ->. discriminate. }
      { eapply Forall_impl; [|exact Fc]. intros c (Kc & _). exact Kc. }
      rewrite Eg in Eg'. injection Eg' as <-. destruct (to_dnf_kept g d Kg Ed) as (Kd & Dd). split; auto. split; auto. right. apply (to_dnf_lively g d); auto; [apply Kg|]. apply (reduce_dsat cs); auto. eapply Forall_impl; [|exact Fc]. intros c (Kc & Dc). split; auto. apply Kc.
  Qed.

  (** *** The recursion *)
  Notation mu := (mu tests sat).
  Lemma clause_conjunctive : forall c : tr, is_clause c -> conjunctive c.
  Proof.
    intros c [L|(l & -> & _ & L)]; [destruct c; try discriminate L; exact I|]. cbn [conjunctive]. apply All_intro. rewrite Forall_forall in L. intros a Ha. specialize (L a Ha). destruct a; try discriminate L. exact I.
  Qed.
  Lemma mapM_total : forall A B (f : A -> res B) (P : A -> B -> Prop) l, Forall (fun a => exists b, f a = Ok b /\ P a b) l -> exists r, mapM f l = Ok r /\ Forall2 P l r.
  Proof. intros A B f P l F. apply mapM_ok. rewrite Forall_forall in F. exact F. Qed.
  Theorem disjoint_union_total : forall n e, normal e -> one_clause e \/ (mu (holds e) <= n)%nat -> exists d, disjoint_union io po fuel n e = Ok d /\ kept d.
  Proof.
    induction n as [n IH] using lt_wf_ind. intros e (K & Dn & Lv) Hn.
    destruct e as [| | | | | | | |k t v|l|l] eqn:Ee; try (destruct K as ((_ & K) & _); discriminate K); try (exists e; subst e; destruct n; (split; [reflexivity|exact K])).
    rewrite <- Ee in K, Dn, Lv, Hn.
    assert (Hn' : (mu (holds e) <= n)%nat). { destruct Hn as [[B|(m & E)]|]; auto; [subst e; discriminate B|congruence]. }
    assert (Ll : Forall lively l). { destruct Lv as [[B|(m & E)]|Lv]; [subst e; discriminate B|congruence|subst e; exact Lv]. }
    subst e. destruct (non_disjoint_total l K Dn Ll) as (t & Et & Ft).
    pose proof (non_disjoint_ok io po fuel l t (proj1 K) (cmps_on_vars nominal cuts no_points _ (kept_cmps _ K)) Et) as Tb. pose proof (table_in _ _ _ Tb) as Ti. cbn [app] in Ti.
    assert (Kl : Forall (fun c => kept c /\ is_clause c /\ lively c) l).
    { destruct K as (G & F). apply gev_or in G. destruct G as (_ & G). cbn [lits] in F. apply lits_list in F. destruct (dnf_clauses (EOr l) Dn) as (_ & Cl). cbn [clauses] in Cl. rewrite Forall_forall in *. intros c Hc. split; [split; [now apply G|apply Forall_forall; intros a; revert a; apply Forall_forall; exact (F c Hc)]|]. auto. }
    assert (Hd : exists n', disjoint_union io po fuel n (EOr l) = (if forallb (fun p => is_nil (snd p)) t then Ok (EOr l) else
      match n' with O => Raise OutOfFuel | S m => do cs <- mapM (cascade io) t; do ns <- mapM (dnf_normalize io po fuel) cs; do sols <- mapM (disjoint_union io po fuel m) (somes ns); reduceM (ev_or io) sols end) /\ n' = n).
    { exists n. split; auto. destruct n; cbn [disjoint_union]; rewrite Et; reflexivity. }
    destruct Hd as (n' & -> & ->). destruct (forallb _ t) eqn:Ef; [eauto|].
    assert (Pos : (1 <= mu (holds (EOr l)))%nat).
    { destruct l as [|a l]; [destruct Dn as [[B|(m & E & _)]|(m & E & Ne & _)]; try discriminate; injection E as <-; tauto|]. inversion Ll as [|? ? (w & S & Hw) _]; subst.
      assert (mu (fun _ => False) < mu (holds (EOr (a :: l))))%nat; [|lia]. apply (mu_lt tests sat _ _ w); auto; [tauto|]. apply holds_or. exists a. split; auto. now left. }
    destruct n as [|m]; [lia|].
    (* differences *)
    destruct (mapM_total _ _ (cascade io) (fun p c => cascade io p = Ok c /\ kept c) t) as (cs & Ecs & Fcs).
    { rewrite Forall_forall in *. intros p Hp. destruct (Ti p Hp) as (T1 & T2). destruct (cascade_kept p) as (c & Ec & Kc); [apply (Kl _ T1)|apply Forall_forall; intros x Hx; now apply Kl, T2|]. eauto. }
    rewrite Ecs. cbn [bind].
    assert (Fc : Forall2 (fun p c => (forall w, holds c w <-> holds (fst p) w /\ forall x, In x (snd p) -> fails x w) /\ kept c /\ (snd p = [] -> c = fst p)) t cs).
    { clear -Fcs Ti Kl. induction Fcs as [|p c t cs (E & Kc) F IH]; constructor; inversion Ti as [|? ? (T1 & T2) Ti']; subst; auto. rewrite Forall_forall in Kl. split; [|split; auto].
      - apply (cascade_ok io p c); auto; [apply (Kl _ T1)|]. apply Forall_forall. intros x Hx. apply (Kl x (T2 x Hx)).
      - intros E0. unfold cascade in E. rewrite E0 in E. cbn [foldM] in E. congruence. }
    destruct (mapM_total _ _ (dnf_normalize io po fuel) (fun c o => dnf_normalize io po fuel c = Ok o /\ match o with Some d => normal d /\ (forall w, holds d w <-> holds c w) | None => forall w, ~ holds c w end) cs) as (ns & Ens & Fns).
    { apply Forall_forall. intros c Hc. destruct (Forall2_in_r _ _ _ _ _ _ Fc Hc) as (p & _ & _ & Kc & _). destruct (normalize_kept c Kc) as (o & Eo & Ho). eauto. }
    rewrite Ens. cbn [bind].
    assert (Fx : Forall (fun x => exists d, disjoint_union io po fuel m x = Ok d /\ kept d) (somes ns)).
    { assert (Fpo : Forall2 (fun p o => In p t /\ match o with Some d => normal d /\ (one_clause d \/ (mu (holds d) <= m)%nat) | None => True end) t ns).
      { assert (Sub : forall t0, incl t0 t -> forall cs0 ns0, Forall2 (fun p c => (forall w, holds c w <-> holds (fst p) w /\ forall x, In x (snd p) -> fails x w) /\ kept c /\ (snd p = [] -> c = fst p)) t0 cs0 ->
          Forall2 (fun c o => dnf_normalize io po fuel c = Ok o /\ match o with Some d => normal d /\ (forall w, holds d w <-> holds c w) | None => forall w, ~ holds c w end) cs0 ns0 ->
          Forall2 (fun p o => In p t /\ match o with Some d => normal d /\ (one_clause d \/ (mu (holds d) <= m)%nat) | None => True end) t0 ns0).
        { intros t0 It cs0 ns0 F1. revert ns0 It. induction F1 as [|p c t0 cs0 (Hc & Kc & Nc) F1 IH1]; intros ns0 It F2; inversion F2 as [|? o ? ns1 (Eo & Ho) F2']; subst; constructor; [|apply IH1; auto; intros z Hz; apply It; now right].
          assert (Ip : In p t) by (apply It; now left). split; auto. destruct o as [d|]; auto. destruct Ho as (Nd & Hh). split; auto. rewrite Forall_forall in Ti, Ft, Kl. destruct (Ti p Ip) as (T1 & T2). destruct (snd p) as [|y o] eqn:Eo'.
          - left. rewrite (Nc eq_refl) in Eo. apply (normalize_one io po fuel nominal cuts no_points (fst p) d); auto; [apply kept_cmps; now apply Kl|]. apply clause_conjunctive. now apply Kl.
          - right. specialize (Ft p Ip). rewrite Eo' in Ft. inversion Ft as [|? ? (w0 & S0 & Hy & Hp) _]; subst.
            assert (mu (holds d) < mu (holds (EOr l)))%nat; [|lia]. apply (mu_lt tests sat _ _ w0); auto.
            + intros w _ Hw. apply Hh, Hc in Hw. apply holds_or. exists (fst p). split; tauto.
            + apply holds_or. exists (fst p). auto.
            + intros w Sw Aw Hw. apply Hh, Hc in Hw. destruct Hw as (_ & Hw). specialize (Hw y ltac:(now left)). assert (Hy' : holds y w) by (apply (kept_firm y) with (w := w0); auto; apply Kl, T2; now left).
              unfold holds, fails, one, zero in *. rewrite Hy' in Hw. injection Hw as Hw. lra. }
        apply (Sub t (incl_refl t) cs ns); auto. }
      clear -Fpo IH. induction Fpo as [|p o t0 ns (_ & H) F IH2]; [constructor|]. destruct o as [d|]; cbn; auto. constructor; auto. destruct H as (Nd & H). apply (IH m); auto. }
    destruct (mapM_total _ _ (disjoint_union io po fuel m) (fun _ d => kept d) (somes ns) Fx) as (sols & Es & Fs). rewrite Es. cbn [bind]. apply (reduce_kept (ev_or io) or_kept); [|clear -Fs; induction Fs; constructor; auto].
    (* the first clause leaves something *)
    destruct l as [|a l]; [inversion Tb; subst; discriminate Ef|]. inversion Tb as [|? ? o ? t' Io _ _]; subst. assert (o = []) as -> by (destruct o as [|y o]; [auto|exfalso; apply (Io y); now left]).
    inversion Fc as [|? c ? cs' (_ & _ & Nc) _]; subst. cbn [fst snd] in Nc. specialize (Nc eq_refl). subst c. inversion Fns as [|? o ? ns' (_ & Ho) _]; subst. inversion Ll as [|? ? (w & S & Hw) _]; subst. destruct o as [d|]; [|exfalso; now apply (Ho w)].
    cbn in Fs. inversion Fs; subst. discriminate.
  Qed.
End Union.
