(** The translator accepts exactly the programs of the language (C51). *)
From Coq Require Import List Bool String Arith Lia.
From Verif Require Import Base Num Sets Trans Source GramSpec.
Import ListNotations.

Section Gram.
  Context {N : numsys} (isdist : string -> bool) (unparse : expr N -> expr N -> string).
  Notation expr := (expr N).
  Notation stmt := (stmt N).
  Notation vstate := (vstate N).
  Notation visit := (visit (N:=N) isdist unparse).
  Notation legal := (legal (N:=N) isdist).
  Notation legals := (legals (N:=N) isdist).
  Notation alternative := (alternative (N:=N) isdist).
  Notation assignment := (assignment (N:=N) isdist).
  Notation assigns := (assigns (N:=N)).

  (** ** The names of an expression *)
  Lemma expr_ind' : forall P : expr -> Prop,
    (forall x, P (XName x)) -> (forall c, P (XNum c)) -> (forall s, P (XText s)) -> (forall b, P (XBool b)) ->
    (forall op a b, P a -> P b -> P (XBin op a b)) -> (forall op a, P a -> P (XUn op a)) ->
    (forall c l, Forall P l -> P (XBoolOp c l)) -> (forall a l, P a -> Forall (fun p => P (snd p)) l -> P (XCmp a l)) ->
    (forall l, Forall P l -> P (XSet l)) -> (forall l, Forall P l -> P (XSeq l)) ->
    (forall a i, P a -> P i -> P (XItem a i)) ->
    (forall f args kws, Forall P args -> Forall (fun p => P (snd p)) kws -> P (XCall f args kws)) ->
    (forall t a b, P t -> P a -> P b -> P (XIf t a b)) -> forall e, P e.
  Proof.
    intros P H1 H2 H3 H4 H5 H6 H7 H8 H9 H10 H11 H12 H13. fix IH 1.
    assert (L : forall l : list expr, Forall P l) by (fix go 1; intros [|a l]; constructor; [apply IH|apply go]).
    assert (M : forall A (l : list (A * expr)), Forall (fun p => P (snd p)) l) by (intros A; fix go 1; intros [|p l]; constructor; [apply IH|apply go]).
    intros [x|c|s|b|op a b|op a|c l|a l|l|l|a i|f args kws|t a b].
    - apply H1.
    - apply H2.
    - apply H3.
    - apply H4.
    - apply H5; apply IH.
    - apply H6; apply IH.
    - apply H7, L.
    - apply H8; [apply IH|apply M].
    - apply H9, L.
    - apply H10, L.
    - apply H11; apply IH.
    - apply H12; [apply L|apply M].
    - apply H13; apply IH.
  Qed.
  Lemma flat_mentions : forall l x, Forall (fun v => forall x, In x (names v) -> mentions v x) l -> In x (flat_map names l) -> exists a : expr, In a l /\ mentions a x.
  Proof. intros l x F H. apply in_flat_map in H. destruct H as (a & Ha & H). exists a. split; auto. rewrite Forall_forall in F. auto. Qed.
  Lemma flat_mentions2 : forall A (l : list (A * expr)) x, Forall (fun p => forall x, In x (names (snd p)) -> mentions (snd p) x) l -> In x (flat_map (fun p => names (snd p)) l) -> exists k a, In (k, a) l /\ mentions a x.
  Proof. intros A l x F H. apply in_flat_map in H. destruct H as ((k & a) & Ha & H). exists k, a. split; auto. rewrite Forall_forall in F. exact (F _ Ha x H). Qed.
  Lemma names_mentions : forall (v : expr) x, In x (names v) <-> mentions v x.
  Proof.
    assert (Up : forall (v u : expr) x, (forall e, part e u -> part e v) -> mentions u x -> mentions v x).
    { intros v u x P [H|(args & kws & H)]; [left|right; exists args, kws]; auto. }
    assert (A : forall (v : expr) x, In x (names v) -> mentions v x).
    { induction v using expr_ind'; intros z H'; cbn [names] in H'; try contradiction.
      - destruct H' as [<-|[]]. left. constructor.
      - apply in_app_iff in H'. destruct H' as [H'|H']; [apply IHv1 in H'|apply IHv2 in H']; revert H'; apply Up; intros; [now apply part_bin_l|now apply part_bin_r].
      - apply IHv in H'. revert H'. apply Up. intros. now constructor.
      - destruct (flat_mentions l z H H') as (a & Ha & M). revert M. apply Up. intros. now apply part_boolop with a.
      - apply in_app_iff in H'. destruct H' as [H'|H'].
        + apply IHv in H'. revert H'. apply Up. intros. now apply part_cmp_l.
        + destruct (flat_mentions2 _ l z H H') as (k & a & Ha & M). revert M. apply Up. intros. now apply part_cmp_r with k a.
      - destruct (flat_mentions l z H H') as (a & Ha & M). revert M. apply Up. intros. now apply part_set with a.
      - destruct (flat_mentions l z H H') as (a & Ha & M). revert M. apply Up. intros. now apply part_seq with a.
      - apply in_app_iff in H'. destruct H' as [H'|H']; [apply IHv1 in H'|apply IHv2 in H']; revert H'; apply Up; intros; [now apply part_item_l|now apply part_item_r].
      - destruct H' as [<-|H']; [right; exists args, kws; constructor|]. apply in_app_iff in H'. destruct H' as [H'|H'].
        + destruct (flat_mentions args z H H') as (a & Ha & M). revert M. apply Up. intros. now apply part_arg with a.
        + destruct (flat_mentions2 _ kws z H0 H') as (k & a & Ha & M). revert M. apply Up. intros. now apply part_kw with k a.
      - rewrite !in_app_iff in H'. destruct H' as [H'|[H'|H']]; [apply IHv1 in H'|apply IHv2 in H'|apply IHv3 in H']; revert H'; apply Up; intros; [now apply part_if_t|now apply part_if_a|now apply part_if_b]. }
    assert (B : forall e v : expr, part e v -> incl (names e) (names v)).
    { intros e v H. induction H; intros z Hz; cbn [names]; auto; rewrite ?in_app_iff; auto.
      - apply in_flat_map. eauto.
      - right. apply in_flat_map. exists (op, b). auto.
      - apply in_flat_map. eauto.
      - apply in_flat_map. eauto.
      - right. apply in_app_iff. left. apply in_flat_map. eauto.
      - right. apply in_app_iff. right. apply in_flat_map. exists (k, a). auto. }
    intros v x. split; auto. intros [H|(args & kws & H)]; apply (B _ _ H); now left.
  Qed.
  Lemma random_names : forall v : expr, is_nil (filter isdist (names v)) = false <-> random isdist v.
  Proof.
    intros v. unfold random. split.
    - destruct (filter isdist (names v)) as [|d l] eqn:E; [discriminate|]. intros _. assert (H : In d (filter isdist (names v))) by (rewrite E; now left). apply filter_In in H. exists d. rewrite <- names_mentions. tauto.
    - intros (d & Hd & M). apply names_mentions in M. assert (H : In d (filter isdist (names v))) by now apply filter_In. destruct (filter isdist (names v)); [destruct H|reflexivity].
  Qed.

  (** ** What the visitor's state stands for *)
  Definition kinds (st : vstate) : list (string * bool) := map (fun p => (fst p, match snd p with Some _ => true | None => false end)) (vs_variables st).
  Record stands (st : vstate) (pl : place) (G : scope) : Prop := {
    st_vars : declared G = kinds st;
    st_dists : sampled G = negb (is_nil (vs_distributions st));
    st_top : top pl = global_only st;
    st_loop : loop pl = in_context CFor st;
    st_alt : alt pl = in_context CElif st
  }.
  Lemma known_declared : forall st pl G x, stands st pl G -> known st x = true <-> is_declared G x.
  Proof.
    intros st pl G x R. unfold known, is_declared. rewrite (st_vars _ _ _ R), inb_true. unfold kinds. split.
    - intros (y & Hy & E). apply String.eqb_eq in E. subst y. apply in_map_iff in Hy. destruct Hy as ((z & o) & E & Hz). cbn in E. subst z. eexists. apply in_map_iff. exists (x, o). split; [reflexivity|auto].
    - intros (b & H). apply in_map_iff in H. destruct H as ((z & o) & E & Hz). cbn in E. injection E as -> <-. exists x. split; [|apply String.eqb_refl]. apply in_map_iff. exists (x, o). auto.
  Qed.
  Lemma array_declared : forall st pl G x, stands st pl G ->
    existsb (fun p => String.eqb x (fst p) && match snd p with Some _ => true | None => false end) (vs_variables st) = true <-> In (x, true) (declared G).
  Proof.
    intros st pl G x R. rewrite (st_vars _ _ _ R). unfold kinds. rewrite existsb_exists, in_map_iff. split.
    - intros ((y & o) & H & E). apply andb_true_iff in E. destruct E as (E & E'). cbn in *. apply String.eqb_eq in E. subst y. exists (x, o). cbn. split; auto. destruct o; congruence.
    - intros ((y & o) & E & H). cbn in E. injection E as -> E. exists (x, o). split; auto. cbn. rewrite String.eqb_refl. destruct o; auto.
  Qed.

  (** a visit agrees with a judgement: it returns exactly when the judgement has a result, which is
      unique and is what the final state stands for *)
  Definition refused (e : exn) : Prop := e = AssertionError \/ e = AttributeError.
  Definition agrees (m : res (vstate * list (item N))) (pl : place) (J : scope -> Prop) : Prop :=
    match m with
    | Ok (st, _) => exists G, stands st pl G /\ forall G', J G' <-> G' = G
    | Raise e => refused e /\ forall G', ~ J G'
    end.
  Lemma agrees_bind : forall m k pl pl' (J : scope -> Prop) (K : scope -> scope -> Prop),
    agrees m pl J -> (forall st i G, m = Ok (st, i) -> stands st pl G -> agrees (k (st, i)) pl' (K G)) ->
    agrees (bind m k) pl' (fun G' => exists G, J G /\ K G G').
  Proof.
    intros [(st & i)|e] k pl pl' J K H Hk; cbn [bind].
    - destruct H as (G & R & E). specialize (Hk st i G eq_refl R). destruct (k (st, i)) as [(st' & j)|e].
      + destruct Hk as (G2 & R2 & E2). exists G2. split; auto. intros G'. rewrite <- E2. split; [intros (G1 & H1 & H2); apply E in H1; now subst G1|intros H2; exists G; split; auto; now apply E].
      + destruct Hk as (X & Hk). split; auto. intros G' (G1 & H1 & H2). apply E in H1. subst G1. now apply (Hk G').
    - destruct H as (X & H). split; auto. intros G' (G1 & H1 & _). now apply (H G1).
  Qed.
  Lemma agrees_iff : forall m pl (J K : scope -> Prop), (forall G, J G <-> K G) -> agrees m pl J -> agrees m pl K.
  Proof.
    intros [(st & i)|e] pl J K E H; cbn in *.
    - destruct H as (G & R & H). exists G. split; auto. intros G'. rewrite <- E. auto.
    - destruct H as (X & H). split; auto. intros G' HK. apply (H G'). now apply E.
  Qed.
  Lemma agrees_same : forall (m : res (vstate * list (item N))) f pl J, agrees m pl J -> agrees (do (st, i) <- m; Ok (st, f i)) pl J.
  Proof. intros [(st & i)|e] f pl J H; exact H. Qed.
  Lemma agrees_at : forall st i pl G (J : scope -> Prop), stands st pl G -> (forall G', J G' <-> G' = G) -> agrees (Ok (st, i)) pl J.
  Proof. intros. now exists G. Qed.
  Lemma agrees_no : forall e pl (J : scope -> Prop), refused e -> (forall G', ~ J G') -> agrees (Raise e) pl J.
  Proof. intros. now split. Qed.

  (** ** Assignments *)
  Lemma assigns_ok : forall st pl G t v smp, stands st pl G -> agrees (visit_Assign_sample_or_transform t v smp st) pl (assigns pl G t).
  Proof.
    intros st pl G t v smp R. unfold visit_Assign_sample_or_transform.
    destruct t as [x|c|s|b|op a b|op a|c l|a l|l|l|a i|f args kws|t a b]; cbn [bind];
      try (apply agrees_no; [now left|]; intros G' K; inversion K).
    - unfold passert. rewrite <- (st_loop _ _ _ R), <- (st_alt _ _ _ R). destruct (loop pl) eqn:Lp; cbn [negb bind]; [apply agrees_no; [now left|]; intros G' K; inversion K; congruence|].
      destruct (alt pl) eqn:Al.
      + destruct (known st x) eqn:K; cbn [bind].
        * apply (known_declared _ _ _ _ R) in K. apply agrees_at with G; auto. intros G'. split; [intros H; inversion H; subst; congruence|intros ->; now constructor].
        * apply agrees_no; [now left|]. intros G' H. inversion H; subst; try congruence. apply (known_declared _ _ _ _ R) in H3. congruence.
      + destruct (known st x) eqn:K; cbn [negb bind].
        * apply agrees_no; [now left|]. intros G' H. apply (known_declared _ _ _ _ R) in K. inversion H; subst; congruence.
        * assert (D : ~ is_declared G x) by (intros D; apply (known_declared _ _ _ _ R) in D; congruence).
          apply agrees_at with (declare x false G).
          -- destruct R as [R1 R2 R3 R4 R5]. constructor; cbn; auto. unfold kinds. cbn. rewrite map_app, R1. reflexivity.
          -- intros G'. split; [intros H; inversion H; subst; congruence|intros ->; now constructor].
    - destruct a; cbn [bind]; try (apply agrees_no; [now right|]; intros G' K; inversion K).
      pose proof (array_declared _ _ _ x R) as A. destruct (existsb _ (vs_variables st)) eqn:K; cbn [passert bind].
      + apply agrees_at with G; auto. intros G'. split; [intros H; inversion H; subst; congruence|intros ->; constructor; now apply A].
      + apply agrees_no; [now left|]. intros G' H. inversion H; subst. match goal with J : In _ (declared _) |- _ => apply A in J; discriminate end.
  Qed.
  Definition after (v : expr) (st : vstate) : vstate :=
    vs_with_distributions (vs_distributions st ++ filter (fun d => negb (inb String.eqb d (vs_distributions st))) (filter isdist (names v))) st.
  Definition after_scope (v : expr) (G : scope) : scope := Scope (declared G) (sampled G || negb (is_nil (filter isdist (names v)))).
  Lemma after_ok : forall v st pl G, stands st pl G -> stands (after v st) pl (after_scope v G).
  Proof.
    intros v st pl G [R1 R2 R3 R4 R5]. constructor; auto. cbn. rewrite R2. destruct (vs_distributions st) as [|d l]; cbn; auto.
    replace (filter (fun _ => true) (filter isdist (names v))) with (filter isdist (names v)); auto. induction (filter isdist (names v)) as [|y l IH]; cbn; congruence.
  Qed.
  Lemma looked_ok : forall v G G', looked isdist v G G' <-> G' = after_scope v G.
  Proof.
    intros v G (d & s). unfold looked, after_scope. cbn. rewrite <- random_names. split.
    - intros (-> & H). f_equal. destruct (is_nil _), (sampled G), s; cbn; intuition congruence.
    - intros E. injection E as -> ->. split; auto. destruct (is_nil _), (sampled G); cbn; intuition congruence.
  Qed.
  Lemma not_array_ok : forall v : expr, not_array v <-> array_args v = None.
  Proof.
    intros v. unfold not_array. split.
    - destruct v; cbn; auto. destruct (String.eqb_spec f "array") as [->|]; auto. intros H. now destruct (H args kws).
    - intros H args kws ->. cbn in H. discriminate.
  Qed.
  Lemma assignment_ok : forall st pl G t v, stands st pl G -> agrees (visit_Assign isdist unparse [t] v st) pl (assignment pl G t v).
  Proof.
    intros st pl G t v R. unfold visit_Assign. fold (after v st). pose proof (after_ok v st pl G R) as R'.
    destruct (array_args v) as [args|] eqn:Ar.
    - destruct v; cbn in Ar; try discriminate. destruct (String.eqb_spec f "array") as [->|]; [|discriminate]. injection Ar as ->.
      assert (Ob : forall G', assignment pl G t (XCall "array" args kws) G' -> top pl = true /\ exists x n, t = XName x /\ args = [n] /\ ~ is_declared G x /\ G' = declare x true (after_scope (XCall "array" args kws) G)).
      { intros G' H. inversion H; subst; try congruence; try (exfalso; now apply (H0 args kws)). split; auto. exists x, n. repeat split; auto. f_equal. now apply looked_ok. }
      unfold visit_Assign_array, passert. rewrite <- (st_top _ _ _ R'). destruct (top pl) eqn:Tp; cbn [bind]; [|apply agrees_no; [now left|]; intros G' H; apply Ob in H; destruct H; discriminate].
      assert (No : (forall x n, t = XName x -> args = [n] -> False) -> agrees (Raise AssertionError) pl (assignment pl G t (XCall "array" args kws))).
      { intros H. apply agrees_no; [now left|]. intros G' K. apply Ob in K. destruct K as (_ & x & n & Et & Ea & _). eauto. }
      destruct t; try (apply No; intros; discriminate). destruct args as [|n [|]]; try (apply No; intros; discriminate). clear No.
      pose proof (known_declared _ _ _ x R') as Kd. destruct (known (after _ st) x); cbn [negb bind].
      + apply agrees_no; [now left|]. intros G' K. apply Ob in K. destruct K as (_ & x' & n' & Et & Ea & D & _). injection Et as <-. apply D. destruct Kd as (Kd & _). destruct (Kd eq_refl) as (b & Hb). now exists b.
      + apply agrees_at with (declare x true (after_scope (XCall "array" [n] kws) G)).
        * destruct R' as [R1 R2 R3 R4 R5]. constructor; auto. unfold kinds, declare. cbn [declared vs_variables vs_with_variable]. rewrite map_app, R1. reflexivity.
        * intros G'. split; [intros K; apply Ob in K; destruct K as (_ & x' & n' & Et & _ & _ & ->); now injection Et as <-|]. intros ->. apply assign_array; auto; [|now apply looked_ok].
          intros (b & Hb). assert (false = true) by (apply Kd; now exists b). discriminate.
    - assert (Na : not_array v) by now apply not_array_ok. pose proof (random_names v) as Rn. destruct (filter isdist (names v)) as [|d ds] eqn:Ed.
      + assert (Nr : ~ random isdist v) by (intros K; apply Rn in K; discriminate). cbn [is_nil negb].
        assert (Ob : forall G', assignment pl G t v G' -> ((exists x, mentions v x /\ is_declared G x) /\ assigns pl G t G') \/ ((forall x, mentions v x -> ~ is_declared G x) /\ top pl = true /\ sampled G = false /\ G' = G)).
        { intros G' H. inversion H; subst; [exfalso; now apply (Na [n] kws)|exfalso; apply Nr; exists d; split; auto; right; exists args, kws; constructor|contradiction|left|right]; auto. }
        assert (Es : after_scope v G = G) by (unfold after_scope; rewrite Ed; cbn; rewrite orb_false_r; now destruct G).
        rewrite Es in R'. pose proof (fun x => known_declared _ _ _ x R') as Kd.
        destruct (existsb (known (after v st)) (names v)) eqn:Ex.
        * apply existsb_exists in Ex. destruct Ex as (x & Hx & K). apply Kd in K. apply names_mentions in Hx.
          apply agrees_iff with (assigns pl G t); [|now apply assigns_ok]. intros G'. split; [intros H; apply assign_transform; eauto|]. intros H. apply Ob in H. destruct H as [(_ & H)|(H & _)]; auto. now destruct (H x).
        * assert (Nk : forall x, mentions v x -> ~ is_declared G x). { intros x Mx D. apply Kd in D. apply names_mentions in Mx. assert (E : existsb (known (after v st)) (names v) = true) by (apply existsb_exists; eauto). congruence. }
          unfold visit_Assign_py, passert. rewrite <- (st_top _ _ _ R'). destruct (top pl) eqn:Tp; cbn [bind].
          2: { apply agrees_no; [now left|]. intros G' H. apply Ob in H. destruct H as [((x & Mx & D) & _)|(_ & H & _)]; [now apply (Nk x)|discriminate]. }
          pose proof (st_dists _ _ _ R') as Sd. destruct (is_nil (vs_distributions (after v st))); cbn [bind] in *; cbn in Sd.
          -- apply agrees_at with G. { destruct R' as [R1 R2 R3 R4 R5]. match goal with |- stands (if ?b then _ else _) _ _ => destruct b end; constructor; auto. }
             intros G'. split; [|intros ->; now apply assign_constant]. intros H. apply Ob in H. destruct H as [((x & Mx & D) & _)|(_ & _ & _ & H)]; auto. exfalso. now apply (Nk x).
          -- apply agrees_no; [now left|]. intros G' H. apply Ob in H. destruct H as [((x & Mx & D) & _)|(_ & _ & H & _)]; [now apply (Nk x)|congruence].
      + assert (Rd : random isdist v) by (now apply Rn). cbn [is_nil negb].
        assert (Ob : forall G', assignment pl G t v G' -> (exists d args kws, v = XCall d args kws /\ isdist d = true) \/ (exists a b, v = XBin BOr a b)).
        { intros G' H. inversion H; subst; eauto 6; try contradiction. exfalso. now apply (Na [n] kws). }
        assert (No : ~ ((exists d args kws, v = XCall d args kws /\ isdist d = true) \/ (exists a b, v = XBin BOr a b)) -> agrees (Raise AssertionError) pl (assignment pl G t v)).
        { intros H. apply agrees_no; [now left|]. intros G' K. apply H. eauto. }
        assert (Yes : (exists d args kws, v = XCall d args kws /\ isdist d = true) \/ (exists a b, v = XBin BOr a b) -> agrees (visit_Assign_sample_or_transform t v true (after v st)) pl (assignment pl G t v)).
        { intros C. apply agrees_iff with (assigns pl (after_scope v G) t); [|now apply assigns_ok]. intros G'. split.
          - intros H. destruct C as [(d' & args & kws & -> & Hd)|(a & b & ->)]; [apply assign_sample with (after_scope (XCall d' args kws) G)|apply assign_mixture with (after_scope (XBin BOr a b) G)]; auto; try (now apply looked_ok). intros ->. now apply (Na args kws).
          - intros H. inversion H; subst; try contradiction; [exfalso; now apply (Na [n] kws)| |]; match goal with K : looked _ _ _ _ |- _ => apply looked_ok in K; now subst end. }
        destruct v as [x|c|s|b|op a b|op a|c l|a l|l|l|a i|f args kws|t' a b]; try (apply No; intros [(d' & args' & kws' & E & _)|(a' & b' & E)]; discriminate).
        * destruct op; try (apply No; intros [(d' & args' & kws' & E & _)|(a' & b' & E)]; discriminate). apply Yes. eauto.
        * destruct (isdist f) eqn:Hf; [apply Yes; eauto 6|]. apply No. intros [(d' & args' & kws' & E & Hd)|(a' & b' & E)]; [injection E as <- <- <-; congruence|discriminate].
  Qed.

  (** ** Blocks, branches and contexts *)
  Fixpoint lmax (l : list nat) : nat := match l with [] => 0 | a :: l => max a (lmax l) end.
  Fixpoint xdepth (e : expr) : nat := match e with XIf _ a b => S (S (max (xdepth a) (xdepth b))) | _ => 0 end.
  (** how deep conditional expressions and statements are nested *)
  Fixpoint sdepth (s : stmt) : nat :=
    match s with
    | SAssign _ v => S (xdepth v)
    | SIf _ a b => S (max (lmax (map sdepth a)) (lmax (map sdepth b)))
    | SFor _ _ _ b => S (lmax (map sdepth b))
    | SImport _ | SCall _ _ | SNone => 1
    end.
  Notation ldepth l := (lmax (map sdepth l)).
  Definition pdepth (p : list stmt) : nat := ldepth p.

  Section Visit.
    Context (v : stmt -> visitor (N:=N)) (n : nat).
    Context (Hv : forall s, sdepth s <= n -> forall st pl G, stands st pl G -> agrees (v s st) pl (legal pl G s)).
    Lemma each_ok : forall l, ldepth l <= n -> forall st pl G, stands st pl G -> agrees (each v l st) pl (legals pl G l).
    Proof.
      induction l as [|s l IH]; intros D st pl G R; cbn [each].
      - apply agrees_at with G; auto. intros G'. split; [intros H; now inversion H|intros ->; constructor].
      - cbn [map lmax sdepth] in D. apply agrees_iff with (fun G' => exists G1, legal pl G s G1 /\ legals pl G1 l G').
        + intros G'. split; [intros (G1 & H1 & H2); now apply legals_cons with G1|intros H; inversion H; subst; eauto].
        + apply agrees_bind with pl; [apply Hv; auto; lia|]. intros st1 i G1 _ R1. apply (agrees_same (each v l st1) (fun j => i ++ j)). apply IH; auto; lia.
    Qed.
    Lemma block_ok : forall l, ldepth l <= n -> forall st pl G, stands st pl G -> agrees (block v l st) pl (legals pl G l).
    Proof.
      intros l D st pl G R. unfold block. apply (agrees_same (each v l (vs_with_first false st)) (fun i => if Nat.ltb 1 (List.length l) || vs_first st then [ISequence i] else i)).
      apply each_ok; auto. destruct R. constructor; auto.
    Qed.
    Lemma within_ok : forall c (m : visitor (N:=N)) st pl pl' G J, stands st pl G ->
      c <> CGlobal -> pl' = Place false (loop pl || ctx_eqb CFor c) (alt pl || ctx_eqb CElif c) ->
      (forall st1, stands st1 pl' G -> agrees (m st1) pl' J) -> agrees (within c m st) pl J.
    Proof.
      intros c m st pl pl' G J [R1 R2 R3 R4 R5] Hc -> Hm. unfold within.
      assert (R' : stands (vs_with_context (vs_context st ++ [c]) st) (Place false (loop pl || ctx_eqb CFor c) (alt pl || ctx_eqb CElif c)) G).
      { constructor; auto; cbn [top loop alt]; unfold global_only, in_context in *; cbn [vs_context vs_with_context].
        - destruct (vs_context st) as [|a [|b l]]; cbn; [destruct c; congruence|destruct a; reflexivity|destruct a; reflexivity].
        - rewrite existsb_app, R4. cbn. now rewrite orb_false_r.
        - rewrite existsb_app, R5. cbn. now rewrite orb_false_r. }
      specialize (Hm _ R'). destruct (m _) as [(st' & i)|e]; cbn [bind]; [|exact Hm]. destruct Hm as (G' & [S1 S2 _ _ _] & H). exists G'. split; auto. constructor; auto.
    Qed.
    Definition rest (o : list stmt) : list (expr * list stmt) :=
      match o with
      | [] => []
      | [s'] => match s' with SIf _ _ _ => unroll_if s' | _ => [(XBool true, o)] end
      | _ => [(XBool true, o)]
      end.
    Lemma rest_if : forall t b o, rest [SIf t b o] = (t, b) :: rest o.
    Proof. reflexivity. Qed.
    Lemma other_inner : forall pl, other (inner pl) = other pl.
    Proof. reflexivity. Qed.
    Lemma branches_ok : forall k o, ldepth o <= k -> k <= n -> o <> [] -> forall st pl G, stands st pl G -> top pl = false ->
      agrees (branches v false (rest o) st) pl (alternative (other pl) G o).
    Proof.
      induction k as [|k IH]; intros o D Dn No st pl G R Tp.
      { exfalso. destruct o as [|s o]; [congruence|]. cbn [map lmax sdepth] in D. destruct s; cbn [sdepth] in D; lia. }
      assert (In' : forall b rs J K, ldepth b <= n -> (forall st1 G1, stands st1 pl G1 -> agrees (branches v false rs st1) pl (J G1)) ->
        (forall G', (exists G1, legals (other pl) G b G1 /\ J G1 G') <-> K G') -> forall t, agrees (branches v false ((t, b) :: rs) st) pl K).
      { intros b rs J K Db Hr E t. apply agrees_iff with (fun G' => exists G1, legals (other pl) G b G1 /\ J G1 G'); auto. cbn [branches].
        apply agrees_bind with pl.
        - apply within_ok with (other pl) G; auto; [discriminate|cbn; now rewrite orb_false_r, orb_true_r|]. intros st1 R1. now apply block_ok.
        - intros st1 i G1 _ R1. apply (agrees_same (branches v false rs st1) (fun j => IExpr (rewrite t) :: i ++ j)). now apply Hr. }
      assert (Else : (forall t b o', o <> [SIf t b o']) -> agrees (branches v false [(XBool true, o)] st) pl (alternative (other pl) G o)).
      { intros Ns. apply In' with (fun G1 G' => G' = G1); [lia| |].
        - intros st1 G1 R1. cbn [branches]. now apply agrees_at with G1.
        - intros G'. split; [intros (G1 & H & ->); now constructor|]. intros H. inversion H; subst; [eauto|]. now destruct (Ns c body []). }
      destruct o as [|s [|s' o]]; [congruence| |apply Else; intros; discriminate].
      destruct s; try (apply Else; intros; discriminate). clear Else. rewrite rest_if. rename body into b, orelse into o.
      cbn [map lmax sdepth] in D. destruct o as [|s o].
      - apply In' with (fun G1 G' => G' = G1); [lia| |].
        + intros st1 G1 R1. cbn [branches rest]. now apply agrees_at with G1.
        + intros G'. split; [intros (G1 & H & ->); now constructor|]. intros H. inversion H as [l G2 Hl|]; subst; [|eauto]. inversion Hl as [|? ? ? ? H1]; subst. inversion H1; subst. congruence.
      - remember (s :: o) as o' eqn:Eo. apply In' with (fun G1 => alternative (other pl) G1 o'); [lia| |].
        + intros st1 G1 R1. apply IH; auto; [lia|lia|subst; discriminate].
        + intros G'. split.
          * intros (G1 & H1 & H2). constructor. apply legals_cons with G'; [|constructor]. apply legal_if with G1; [subst; discriminate| |]; assumption.
          * intros H. inversion H as [l G2 Hl|]; [|congruence]. subst l G2. inversion Hl as [|? ? G1 ? H1 H2]; subst s0 l G2. inversion H2. subst G1. inversion H1; subst. eauto.
    Qed.
    Lemma if_ok : forall t b o, sdepth (SIf t b o) <= S n -> forall st pl G, stands st pl G -> agrees (visit_If v (SIf t b o) st) pl (legal pl G (SIf t b o)).
    Proof.
      intros t b o D st pl G R. cbn [map lmax sdepth] in D. unfold visit_If. change (unroll_if (SIf t b o)) with ((t, b) :: rest o).
      destruct o as [|s o].
      - change (agrees (Raise AssertionError) pl (legal pl G (SIf t b []))). apply agrees_no; [now left|]. intros G' H. inversion H. congruence.
      - remember (s :: o) as o' eqn:Eo. assert (No : o' <> []) by (subst; discriminate).
        assert (L : Nat.leb 2 (List.length ((t, b) :: rest o')) = true).
        { apply Nat.leb_le. cbn. subst o'. destruct s; cbn; try (destruct o; cbn; lia). }
        rewrite L. cbn [passert bind]. apply (agrees_same (within CIf (branches v true ((t, b) :: rest o')) st) (fun i => [IIfElse i])).
        apply within_ok with (inner pl) G; auto; [discriminate|cbn; now rewrite !orb_false_r|]. intros st1 R1. cbn [branches].
        apply agrees_iff with (fun G' => exists G1, legals (inner pl) G b G1 /\ alternative (other pl) G1 o' G').
        + intros G'. split; [intros (G1 & H1 & H2); now apply legal_if with G1|intros H; inversion H; subst; eauto].
        + apply agrees_bind with (inner pl); [apply block_ok; auto; lia|]. intros st2 i G1 _ R2. apply (agrees_same (branches v false (rest o') st2) (fun j => IExpr (rewrite t) :: i ++ j)).
          rewrite <- (other_inner pl). apply branches_ok with n; auto. lia.
    Qed.
    Lemma for_ok : forall x f args b, sdepth (SFor x f args b) <= S n -> forall st pl G, stands st pl G -> agrees (visit_For v x f args b st) pl (legal pl G (SFor x f args b)).
    Proof.
      intros x f args b D st pl G R. cbn [map lmax sdepth] in D. unfold visit_For.
      assert (No : forall e, refused e -> (forall G', ~ legal pl G (SFor x f args b) G') -> agrees (Raise e) pl (legal pl G (SFor x f args b))) by (intros; now apply agrees_no).
      destruct (String.eqb_spec f "range") as [->|Nr]; [|destruct (String.eqb_spec f "switch") as [->|Ns]].
      - unfold visit_For_vanilla.
        assert (Yes : forall y n0 n1, x = [y] -> List.length args = 1 \/ List.length args = 2 -> agrees (do (st', i) <- within CFor (block v b) st; Ok (st', [IFor n0 n1 y i])) pl (legal pl G (SFor x "range" args b))).
        { intros y n0 n1 -> La. apply (agrees_same (within CFor (block v b) st) (fun i => [IFor n0 n1 y i])). apply agrees_iff with (legals (looped pl) G b); [intros G'; split; [now constructor|intros H; inversion H; subst; auto]|].
          apply within_ok with (looped pl) G; auto; [discriminate|cbn; now rewrite orb_true_r, orb_false_r|]. intros st1 R1. apply block_ok; auto. lia. }
        destruct x as [|y [|]]; try (apply No; [now left|]; intros G' H; inversion H; fail).
        destruct args as [|a1 [|a2 [|]]]; cbn [bind]; try (apply No; [now left|]; intros G' H; inversion H; subst; cbn in *; lia); apply Yes; auto.
      - unfold visit_For_switch.
        destruct args as [|a1 [|a2 [|]]]; try (apply No; [now left|]; intros G' H; inversion H; fail).
        assert (Yes : (exists y, a1 = XName y) \/ (exists a i, a1 = XItem a i) -> agrees (do (st', i) <- within CSwitch (block v b) st; Ok (st', [ISwitch a1 a2 x i])) pl (legal pl G (SFor x "switch" [a1; a2] b))).
        { intros Ha. apply (agrees_same (within CSwitch (block v b) st) (fun i => [ISwitch a1 a2 x i])). apply agrees_iff with (legals (inner pl) G b); [intros G'; split; [now constructor|intros H; inversion H; subst; auto]|].
          apply within_ok with (inner pl) G; auto; [discriminate|cbn; now rewrite !orb_false_r|]. intros st1 R1. apply block_ok; auto. lia. }
        destruct a1; cbn [passert bind]; try (apply Yes; eauto; fail); (apply No; [now left|]; intros G' H; inversion H; subst; match goal with K : _ \/ _ |- _ => destruct K as [(? & K)|(? & ? & K)]; discriminate end).
      - apply No; [now left|]. intros G' H. inversion H; congruence.
    Qed.
  End Visit.

  (** ** Conditional expressions *)
  Lemma unroll_depth : forall ts v, (exists c a b, v = XIf c a b) -> sdepth (unroll_ifexp ts v) <= xdepth v.
  Proof.
    intros ts. induction v using expr_ind'; intros (c' & a' & b' & E); try discriminate. cbn [unroll_ifexp sdepth xdepth map lmax].
    assert (D : sdepth match v3 with XIf _ _ _ => unroll_ifexp ts v3 | _ => SAssign ts v3 end <= S (xdepth v3)) by (destruct v3; cbn [sdepth]; auto; specialize (IHv3 ltac:(eauto)); lia). lia.
  Qed.
  Lemma unroll_legal : forall ts v pl G G', legal pl G (SAssign ts v) G' <-> legal pl G (unroll_ifexp ts v) G'.
  Proof.
    intros ts. induction v using expr_ind'; intros pl G G'; try reflexivity. cbn [unroll_ifexp].
    assert (U : forall pl G G', alternative pl G [match v3 with XIf _ _ _ => unroll_ifexp ts v3 | _ => SAssign ts v3 end] G' <-> alternative pl G [SAssign ts v3] G').
    { clear - IHv3. intros pl G G'.
      assert (O : forall s, (forall c b, s <> SIf c b []) -> alternative pl G [s] G' <-> legal pl G s G').
      { intros s Ns. split; [|intros H; constructor; apply legals_cons with G'; [auto|constructor]]. intros H. inversion H as [l G2 Hl|]; subst; [|now destruct (Ns c body)]. inversion Hl as [|? ? ? ? H1 H2]; subst. inversion H2; now subst. }
      rewrite (O (SAssign ts v3)) by discriminate. rewrite O by (destruct v3; cbn; discriminate). destruct v3; try reflexivity. symmetry. apply IHv3. }
    split.
    - intros H. inversion H as [| |? ? ? Nv _| ? ? ? ? ? Hi| | | | |]; subst; [now destruct (Nv v1 v2 v3)|]. inversion Hi; subst. apply legal_if with G1; auto; [discriminate|]. now apply U.
    - intros H. inversion H; subst. apply legal_choice. apply legal_if with G1; auto; [discriminate|]. now apply U.
  Qed.
  Theorem visit_ok : forall n s, sdepth s <= n -> forall st pl G, stands st pl G -> agrees (visit n s st) pl (legal pl G s).
  Proof.
    induction n as [|n IH]; intros s D st pl G R; [exfalso; destruct s; cbn [sdepth] in D; lia|]. cbn [Source.visit].
    destruct s as [i|ts v|t b o|x f args b|f args|].
    - apply agrees_at with G; [destruct R; constructor; auto|]. intros G'. split; [intros H; now inversion H|intros ->; constructor].
    - assert (Plain : (forall c a b, v <> XIf c a b) -> agrees (visit_Assign isdist unparse ts v st) pl (legal pl G (SAssign ts v))).
      { intros Nv. destruct ts as [|t [|]].
        - apply agrees_no; [now left|]. intros G' H. inversion H; subst. now destruct (Nv c a b).
        - apply agrees_iff with (assignment pl G t v); [|now apply assignment_ok]. intros G'. split; [now constructor|]. intros H. inversion H; subst; auto. now destruct (Nv c a b).
        - apply agrees_no; [now left|]. intros G' H. inversion H; subst. now destruct (Nv c a b). }
      destruct v; try (apply Plain; discriminate). clear Plain. apply agrees_iff with (legal pl G (unroll_ifexp ts (XIf v1 v2 v3))); [intros; symmetry; apply unroll_legal|].
      apply IH; auto. pose proof (unroll_depth ts (XIf v1 v2 v3) ltac:(eauto)). cbn [sdepth] in D. lia.
    - now apply if_ok with n.
    - now apply for_ok with n.
    - unfold visit_Call. destruct (String.eqb_spec f "condition") as [->|Nc]; [|destruct (String.eqb_spec f "constrain") as [->|Nk]].
      + destruct args as [|e [|]]; try (apply agrees_no; [now left|]; intros G' H; inversion H; congruence). apply agrees_at with G; auto. intros G'. split; [intros H; now inversion H|intros ->; constructor; auto].
      + destruct args as [|e [|]]; try (apply agrees_no; [now left|]; intros G' H; inversion H; congruence). apply agrees_at with G; auto. intros G'. split; [intros H; now inversion H|intros ->; constructor; auto].
      + apply agrees_at with G; auto. intros G'. split; [intros H; now inversion H|intros ->; now apply legal_call].
    - apply agrees_at with G; auto. intros G'. split; [intros H; now inversion H|intros ->; constructor].
  Qed.
  Lemma stands_init : stands vs_init outside start.
  Proof. constructor; reflexivity. Qed.
  Lemma translate_ok : forall n p, pdepth p <= n -> agrees (translate isdist unparse n p) outside (legals outside start p).
  Proof. intros n p D. unfold translate. apply block_ok with n; auto; [now apply visit_ok|exact stands_init]. Qed.

  (** a program is translated if and only if it is a program of the language *)
  Theorem C51_accepts : forall n p, pdepth p <= n -> (exists r, translate isdist unparse n p = Ok r) <-> (exists G, legals outside start p G).
  Proof.
    intros n p D. pose proof (translate_ok n p D) as A. destruct (translate isdist unparse n p) as [(st & i)|e]; cbn in A.
    - destruct A as (G & _ & A). split; [intros _; exists G; now apply A|eauto].
    - destruct A as (_ & A). split; [intros (r & H); discriminate|intros (G & H); now destruct (A G)].
  Qed.
  (** every other program is refused *)
  Theorem C51_refuses : forall n p, pdepth p <= n -> ~ (exists G, legals outside start p G) ->
    translate isdist unparse n p = Raise AssertionError \/ translate isdist unparse n p = Raise AttributeError.
  Proof.
    intros n p D No. pose proof (translate_ok n p D) as A. destruct (translate isdist unparse n p) as [(st & i)|e]; cbn in A.
    - destruct A as (G & _ & A). destruct No. exists G. now apply A.
    - destruct A as ([->| ->] & _); auto.
  Qed.
  (** the names that the translator records are those that the program declares *)
  Theorem C51_declared : forall n p st i G, pdepth p <= n -> translate isdist unparse n p = Ok (st, i) -> legals outside start p G ->
    declared G = map (fun q => (fst q, match snd q with Some _ => true | None => false end)) (vs_variables st).
  Proof.
    intros n p st i G D H L. pose proof (translate_ok n p D) as A. rewrite H in A. cbn in A. destruct A as (G' & R & A). apply A in L. subst G'. exact (st_vars _ _ _ R).
  Qed.

  (** a random name is declared once; outside the alternatives of ifs, no name is assigned twice *)
  Scheme legal_min := Minimality for GramSpec.legal Sort Prop with legals_min := Minimality for GramSpec.legals Sort Prop with alternative_min := Minimality for GramSpec.alternative Sort Prop.
  Combined Scheme legal_mut from legal_min, legals_min, alternative_min.
  Lemma declare_once : forall G x b, ~ is_declared G x -> NoDup (map fst (declared G)) -> NoDup (map fst (declared (declare x b G))).
  Proof.
    intros G x b H D. unfold declare. cbn [declared]. rewrite map_app. cbn. apply (NoDup_Add (Add_app x (map fst (declared G)) [])). rewrite app_nil_r. split; auto.
    intros K. apply in_map_iff in K. destruct K as ((y & c) & <- & K). apply H. now exists c.
  Qed.
  Lemma assigns_once : forall pl G t G', assigns pl G t G' -> NoDup (map fst (declared G)) -> NoDup (map fst (declared G')).
  Proof. intros pl G t G' H D. inversion H; subst; auto. now apply declare_once. Qed.
  Lemma assignment_once : forall pl G t v G', assignment pl G t v G' -> NoDup (map fst (declared G)) -> NoDup (map fst (declared G')).
  Proof.
    intros pl G t v G' H D.
    assert (L : forall (v : expr) G1, looked isdist v G G1 -> declared G1 = declared G) by (intros v' G1 (E & _); exact E).
    inversion H; subst; auto.
    - match goal with K : looked _ _ _ _ |- _ => apply L in K; apply declare_once; [unfold is_declared; now rewrite K|now rewrite K] end.
    - match goal with K : looked _ _ _ _ |- _ => apply L in K end. eapply assigns_once; eauto. congruence.
    - match goal with K : looked _ _ _ _ |- _ => apply L in K end. eapply assigns_once; eauto. congruence.
    - eapply assigns_once; eauto.
  Qed.
  Theorem C51_once : forall p G, legals outside start p G -> NoDup (map fst (declared G)).
  Proof.
    assert (M : forall pl G,
      (forall s G', legal pl G s G' -> NoDup (map fst (declared G)) -> NoDup (map fst (declared G'))) /\
      (forall l G', legals pl G l G' -> NoDup (map fst (declared G)) -> NoDup (map fst (declared G'))) /\
      (forall l G', alternative pl G l G' -> NoDup (map fst (declared G)) -> NoDup (map fst (declared G')))).
    { apply (legal_mut N isdist (fun _ G _ G' => NoDup (map fst (declared G)) -> NoDup (map fst (declared G'))) (fun _ G _ G' => NoDup (map fst (declared G)) -> NoDup (map fst (declared G'))) (fun _ G _ G' => NoDup (map fst (declared G)) -> NoDup (map fst (declared G')))); auto. intros. eapply assignment_once; eauto. }
    intros p G H. apply (proj1 (proj2 (M _ _)) _ _ H). constructor.
  Qed.
End Gram.
