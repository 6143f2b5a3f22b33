(** The events of a Switch can be made when the values of the cases are strings, sets of strings,
    or single numbers and separate intervals. *)
From Coq Require Import List Bool String Reals Lra Lia ZArith Permutation Classical.
From Verif Require Import Base Num Sets SetSpec SetIv SetProofs SetOr SetOps SetAlg SetBuilt
  Poly Trans TransSpec TransFacts PolyProofs InvProofs InvMain EvProofs ArithProofs
  Dnf DnfSpec DnfProofs DnfUnion PropDnf Logs Spe SpeSpec SpeFacts Prog ProgSpec ProgEvents
  TotalSpec TotalEnds TotalSets TotalSolve TotalUnion NormSorts ReturnSpec.
Import ListNotations.
Local Open Scope R_scope.

Section Arcs.
  Context {N : numsys} (io : iterorder N) (cut : R -> Prop).
  Notation pset := (pset N).
  Notation bset := (bset N).
  Notation interval := (interval N).
  Notation nothing := (fun _ : R => False).
  Notation ends := (ends cut nothing).
  Notation iv_ends := (iv_ends cut).
  Definition single (b : bset) : Prop := exists y, b = BReal [y].
  Definition arc (b : bset) : Prop := (exists i, b = BInt i) \/ single b.
  (** an interval or a single number, with ends among the cuts *)
  Definition part (b : bset) : Prop := arc b /\ wf_b b /\ hasinf (PB b) = false /\ ends (PB b).

  Lemma interval_part : forall a b lo ro i, Interval_ a b lo ro = Ok i -> wf_iv i -> (forall r, eR a = Fin r -> cut r) -> (forall r, eR b = Fin r -> cut r) -> part (BInt i).
  Proof.
    intros a b lo ro i E W Ca Cb. apply Interval_ends in E. destruct E as (E1 & E2). split; [left; eauto|]. split; auto. split; [reflexivity|]. apply ends_int. intros r. rewrite E1, E2. intros [K|K]; auto.
  Qed.
  (** the complement: nothing, a half-line, or two on both sides of a member *)
  Lemma inv_part : forall a, part a -> exists n, pinv io (PB a) = Ok n /\ inv_spec (PB a) n /\
    (n = PEmpty \/ (exists i, n = PB (BInt i) /\ part (BInt i)) \/
     exists l r m, n = PUnion [BInt l; BInt r] /\ part (BInt l) /\ part (BInt r) /\ mem (RNum m) (PB a) /\ (forall v, iv_mem v l -> ord v < ord m) /\ (forall v, iv_mem v r -> ord m < ord v)).
  Proof.
    intros a ([(i & ->)|(y & ->)] & W & Hi & Ee).
    - destruct (inv_iv_ok io i W) as (n & En & Sn). exists n. split; [exact En|]. split; auto. pose proof (ends_inv cut nothing i Ee) as Ei. pose proof Sn as (Wn & _ & Dn & _). unfold inv_iv in En.
      destruct (is_ninf (iv_a i)), (is_pinf (iv_b i)).
      + injection En as <-. auto.
      + inv_bind En. injection En as <-. right. left. exists r. split; auto. apply (interval_part _ _ _ _ _ E); auto; try discriminate; intros q K; apply Ei; auto.
      + inv_bind En. injection En as <-. right. left. exists r. split; auto. apply (interval_part _ _ _ _ _ E); auto; try discriminate; intros q K; apply Ei; auto.
      + inv_bind En. inv_bind En. apply Union_inv in En. destruct En as (-> & _). cbn [flat_map opt_list app] in *. right. right.
        destruct (nonempty_mem (PB (BInt i)) W ltac:(discriminate)) as (v & Hv). destruct v as [m|s]; [|destruct Hv]. exists r, r0, m. split; auto.
        destruct Wn as (Fw & _). inversion Fw as [|? ? W1 Fw']; subst. inversion Fw' as [|? ? W2 _]; subst.
        split; [apply (interval_part _ _ _ _ _ E); auto; try discriminate; intros q K; apply Ei; auto|]. split; [apply (interval_part _ _ _ _ _ E0); auto; try discriminate; intros q K; apply Ei; auto|]. split; auto.
        cbn [mem bmem] in Hv. pose proof Hv as Hm. apply iv_mem_pm in Hm. destruct Hm as (M1 & M2).
        assert (A1 : pos (iv_a i) <= ord m) by (destruct (iv_lo i); lra). assert (B1 : ord m <= pos (iv_b i)) by (destruct (iv_ro i); lra).
        assert (Neq : forall v k, iv_mem v k -> In k [r; r0] -> ord v <> ord m).
        { intros v k Hk Ik Q. apply ord_inj in Q. subst v. apply (Dn (RNum m)); [|exact Hv]. exists (BInt k). split; [destruct Ik as [<-|[<-|[]]]; simpl; auto|exact Hk]. }
        apply Interval_ends in E, E0. destruct E as (E1 & E2), E0 as (E3 & E4). split.
        * intros v Hl. specialize (Neq v r Hl ltac:(simpl; auto)). apply iv_mem_pm in Hl. destruct Hl as (_ & L2). rewrite E2 in L2. assert (ord v <= pos (iv_a i)) by (destruct (iv_ro r); lra). lra.
        * intros v Hl. specialize (Neq v r0 Hl ltac:(simpl; auto)). apply iv_mem_pm in Hl. destruct Hl as (L2 & _). rewrite E3 in L2. assert (pos (iv_b i) <= ord v) by (destruct (iv_lo r0); lra). lra.
    - assert (Fy : exists c, y = Fin c) by (cbn in Hi; destruct y; try discriminate Hi; eauto). destruct Fy as (c & ->).
      assert (Af : all_fin [Fin c : ext (num N)]) by (constructor; [apply ord_Fin|constructor]).
      destruct (inv_real_ok io _ W Af) as (n & En & Sn). exists n. split; [exact En|]. split; auto. pose proof Sn as (Wn & _ & Dn & _). unfold inv_real in En. change (sort eleb [Fin c]) with [Fin c : ext (num N)] in En. cbn [gaps] in En. inv_bind En. inv_bind En. inv_bind E0. injection E0 as <-.
      apply Union_inv in En. destruct En as (-> & _). cbn [flat_map opt_list app map] in *. right. right.
      assert (Cc : forall q, Fin (toR c) = Fin q -> cut q).
      { intros q K. destruct Ee as (_ & Ee). destruct (Ee [Fin c] (Fin c) q) as [Q|[]]; auto; now left. }
      destruct Wn as (Fw & _). inversion Fw as [|? ? W1 Fw']; subst. inversion Fw' as [|? ? W2 _]; subst.
      exists r, r1, (Fin (toR c)). split; auto. split; [apply (interval_part _ _ _ _ _ E); auto; try discriminate|]. split; [apply (interval_part _ _ _ _ _ E1); auto; try discriminate|].
      split; [exists (Fin c); simpl; auto|].
      assert (Neq : forall v k, iv_mem v k -> In k [r; r1] -> ord v <> ord (Fin (toR c))).
      { intros v k Hk Ik Q. apply ord_inj in Q. subst v. apply (Dn (RNum (Fin (toR c)))); [|exists (Fin c); simpl; auto]. exists (BInt k). split; [destruct Ik as [<-|[<-|[]]]; simpl; auto|exact Hk]. }
      unfold Ropen in E. unfold Lopen in E1. apply Interval_ends in E, E1. destruct E as (E2 & E3), E1 as (E4 & E5). split.
      + intros v Hl. specialize (Neq v r Hl ltac:(simpl; auto)). apply iv_mem_pm in Hl. destruct Hl as (_ & L2). rewrite E3 in L2. change (pos (Fin c)) with (ord (Fin (toR c))) in L2. destruct (iv_ro r); lra.
      + intros v Hl. specialize (Neq v r1 Hl ltac:(simpl; auto)). apply iv_mem_pm in Hl. destruct Hl as (L2 & _). rewrite E4 in L2. change (pos (Fin c)) with (ord (Fin (toR c))) in L2. destruct (iv_lo r1); lra.
  Qed.

  (** what is left of b *)
  Definition rest (b : bset) (r : pset) : Prop := r = PEmpty \/ exists b', r = PB b' /\ part b' /\ (single b -> single b').
  Lemma iv_and_arc : forall s x r, wf_iv s -> wf_iv x -> iv_and s x = Ok r -> r = PEmpty \/ (exists i, r = PB (BInt i)) \/ exists y : ext (num N), r = PB (BReal [y]) /\ is_inf (N:=N) y = false.
  Proof.
    intros s x r Ws Wx. unfold iv_and.
    repeat match goal with |- context [if ?c then _ else _] => destruct c eqn:? end; intros E; try (inv_bind E); injection E as <-; eauto 6.
    - right. right. exists (iv_a x). split; auto. destruct Ws as (Ws & _), Wx as (Wx & _). clear - Ws Wx Heqb3. destruct (iv_a x), (iv_b s); simpl in *; auto; try discriminate; try now destruct (iv_a s).
    - right. right. exists (iv_b x). split; auto. destruct Ws as (Ws & _), Wx as (Wx & _). clear - Ws Wx Heqb4. destruct (iv_b x), (iv_a s); simpl in *; auto; try discriminate; try now destruct (iv_a x).
  Qed.
  Lemma and_part : forall a b r, part a -> part b -> and_bb a b = Ok r -> rest b r.
  Proof.
    intros a b r (Aa & Wa & Ha & Ea) (Ab & Wb & Hb & Eb) E.
    pose proof (and_bb_ends cut nothing a b r Ea Eb E) as Er. destruct (and_bb_ok a b Wa Wb) as (r' & E' & (Wr & _) & _). rewrite E in E'. injection E' as <-.
    assert (G : r = PEmpty \/ exists b', r = PB b' /\ arc b' /\ hasinf r = false /\ (single b -> single b')).
    { assert (F : forall (vs : ext (num N)) (i : interval), and_real_iv [vs] i = PEmpty \/ and_real_iv [vs] i = PB (BReal [vs])) by (intros y i; unfold and_real_iv; simpl; destruct (iv_contains y i); simpl; auto).
      assert (One : forall y : ext (num N), hasinf (PB (BReal [y])) = false -> exists b', PB (BReal [y]) = PB b' /\ arc b' /\ hasinf (PB (BReal [y])) = false /\ (single b -> single b')).
      { intros y Hy. exists (BReal [y]). assert (single (BReal [y])) by (exists y; auto). repeat split; auto. now right. }
      destruct Aa as [(i & ->)|(y & ->)], Ab as [(j & ->)|(z & ->)]; cbn [and_bb] in E.
      - destruct (iv_and_arc _ _ _ Wa Wb E) as [->|[(k & ->)|(y & -> & Hy)]]; auto; right.
        + exists (BInt k). split; auto. split; [left; eauto|]. split; auto. intros (y & Q); discriminate.
        + apply One. simpl. now rewrite Hy.
      - injection E as <-. destruct (F z i) as [->| ->]; auto.
      - injection E as <-. destruct (F y j) as [->| ->]; auto.
      - injection E as <-. unfold and_real_real. cbn [filter]. destruct (inb eeqb y [z]); [right; apply (One y Ha)|now left]. }
    destruct G as [->|(b' & -> & A' & H' & S')]; [now left|]. right. exists b'. split; auto. split; [|exact S']. split; auto.
  Qed.
  Lemma arc_mid : forall b x y m, arc b -> bmem (RNum x) b -> bmem (RNum y) b -> ord x < ord m < ord y -> bmem (RNum m) b.
  Proof.
    intros b x y m [(i & ->)|(z & ->)] Hx Hy Hm.
    - cbn [bmem] in *. apply iv_mem_pm in Hx, Hy. apply iv_mem_pm. unfold pm in *. destruct (iv_lo i), (iv_ro i); lra.
    - exfalso. destruct Hx as (a & [<-|[]] & Qa), Hy as (b & [<-|[]] & Qb). subst x y. lra.
  Qed.
  Definition disjoint (a b : bset) : Prop := forall v, bmem v a -> bmem v b -> False.
  (** b less a *)
  Lemma minus_part : forall a b, part a -> part b -> single b \/ disjoint a b -> exists n r, pinv io (PB a) = Ok n /\ pand io (PB b) n = Ok r /\ rest b r /\ forall v, mem v r -> bmem v b.
  Proof.
    intros a b Pa Pb H. destruct (inv_part a Pa) as (n & En & Sn & Cn). exists n.
    assert (W : wf n) by apply Sn. pose proof Pb as (Ab & Wb & Hb & Eb).
    destruct Cn as [->|[(i & -> & Pi)|(l & r & m & -> & Pl & Pr & Hm & Ll & Lr)]].
    - exists PEmpty. repeat split; auto; [now left|intros ? []].
    - destruct (and_bb_ok b (BInt i) Wb (proj1 (proj2 Pi))) as (r & Er & (_ & Mr & _) & _). exists r. repeat split; auto. 2: intros v Hv; now apply Mr.
      destruct (and_part _ _ _ Pb Pi Er) as [->|(b' & -> & P' & _)]; [now left|]. right. exists b'. repeat split; auto; try apply P'.
      intros (y & ->). cbn [and_bb] in Er. injection Er as Q. unfold and_real_iv in Q. simpl in Q. destruct (iv_contains y i); simpl in Q; [|discriminate]. injection Q as <-. exists y; auto.
    - destruct (and_bb_ok (BInt l) b (proj1 (proj2 Pl)) Wb) as (rl & El & (Wl & Ml & _) & _). destruct (and_bb_ok (BInt r) b (proj1 (proj2 Pr)) Wb) as (rr & Er & (Wr & Mr & _) & _).
      assert (Z : is_empty rl = true \/ is_empty rr = true).
      { destruct (is_empty rl) eqn:Z1; auto. destruct (is_empty rr) eqn:Z2; auto. exfalso.
        destruct (nonempty_mem rl Wl) as (v & Hv). { intros ->; discriminate. } destruct (nonempty_mem rr Wr) as (w & Hw). { intros ->; discriminate. }
        apply Ml in Hv. apply Mr in Hw. destruct Hv as (V1 & V2), Hw as (W1 & W2). destruct v as [v|]; [|destruct V1]. destruct w as [w|]; [|destruct W1]. cbn [mem bmem] in *.
        specialize (Ll v V1). specialize (Lr w W1). destruct H as [(y & ->)|D].
        - destruct V2 as (a1 & [<-|[]] & Qa), W2 as (b1 & [<-|[]] & Qb). subst v w. lra.
        - apply (D (RNum m) Hm). apply (arc_mid b v w m Ab V2 W2). lra. }
      assert (G : exists r0, and_ub io [BInt l; BInt r] b = Ok r0 /\ (r0 = PEmpty \/ r0 = rl \/ r0 = rr)).
      { apply wf_union_iff in W. destruct W as (Pc & _). pose proof (u_intervals_perm io _ Pc) as Pm. cbn [ivs flat_map app] in Pm.
        rewrite and_ub_real by (destruct Ab as [(k & ->)|(y & ->)]; exact I). unfold and_ub_body. change (u_atoms [BInt l; BInt r]) with (PEmpty : pset). cbn [and_pb bind].
        apply Permutation_length_2_inv in Pm. destruct Pm as [->| ->]; cbn [mapM bind]; rewrite El, Er; cbn [bind filter is_empty]; destruct Z as [Z|Z]; rewrite Z; cbn [negb];
          [destruct (is_empty rr)|destruct (is_empty rl)|destruct (is_empty rr)|destruct (is_empty rl)]; cbn [negb]; eauto. }
      destruct G as (r0 & E0 & C0). exists r0. split; auto. split; [destruct Ab as [(k & ->)|(y & ->)]; exact E0|].
      destruct C0 as [->|[->| ->]]; [split; [now left|intros ? []]| |]; split; try (intros v Hv; apply Ml in Hv || apply Mr in Hv; apply Hv).
      + now apply (and_part _ _ _ Pl Pb).
      + now apply (and_part _ _ _ Pr Pb).
  Qed.
End Arcs.

Section Cases.
  Context {N : numsys} (io : iterorder N) (nominal : string -> bool) (cuts : string -> R -> Prop).
  Notation tr := (tr N).
  Notation pset := (pset N).
  Notation none := (fun (_ : string) (_ : R) => False).
  Notation nothing := (fun _ : R => False).
  Notation sval := (sval (N:=N)).
  Definition less (seen : list pset) (v : pset) := foldM (fun d s => do n <- pinv io s; pand io d n) seen v.
  (** ** strings *)
  Definition texts (v : pset) : Prop := wf v /\ (v = PEmpty \/ nominal_set v).
  Lemma less_texts : forall seen v, Forall (fun u => wf u /\ nominal_set u) seen -> texts v -> exists r, less seen v = Ok r /\ texts r.
  Proof.
    intros seen v F. revert v. induction F as [|u seen (Wu & Nu) F IH]; intros v (Wv & Tv); [exists v; repeat split; auto|]. unfold less. cbn [foldM].
    destruct u as [|[vs f| |]|]; try contradiction. destruct (pinv_nom_ok io vs f Wu) as (n & En & Wn & Sn & _). rewrite En. cbn [bind].
    assert (Tn : n = PEmpty \/ nominal_set n) by (destruct n as [|[]|]; simpl; auto).
    assert (E : exists r, pand io v n = Ok r).
    { destruct v as [|[ws g| |]|]; try (destruct Tv as [Tv|Tv]; [discriminate|contradiction]); [exists PEmpty; reflexivity|]. destruct n as [|[us h| |]|]; try contradiction; cbn; eauto. }
    destruct E as (r & Er). rewrite Er. cbn [bind]. apply IH. split; [now destruct (pand_f io v n r Wv Wn Er)|]. exact (and_nominal io v n r Tv Tn Er).
  Qed.
  (** ** numbers *)
  Lemma less_parts : forall cut seen b, Forall (part cut) seen -> part cut b -> (forall a, In a seen -> single b \/ disjoint a b) ->
    exists r, less (map PB seen) (PB b) = Ok r /\ (r = PEmpty \/ exists b', r = PB b' /\ part cut b').
  Proof.
    intros cut seen b F. assert (Z : forall seen, Forall (part cut) seen -> exists r, less (map PB seen) PEmpty = Ok r /\ r = PEmpty).
    { clear. intros seen F. induction F as [|a seen Pa F IH]; [exists PEmpty; auto|]. unfold less. cbn [map foldM]. destruct (inv_part io cut a Pa) as (n & En & _). rewrite En. cbn [bind]. change (pand io PEmpty n) with (Ok (PEmpty : pset)). exact IH. }
    revert b. induction F as [|a seen Pa F IH]; intros b Pb H; [exists (PB b); split; auto; right; eauto|]. unfold less. cbn [map foldM].
    destruct (minus_part io cut a b Pa Pb (H a (or_introl eq_refl))) as (n & r & En & Er & Rr & Mr). rewrite En. cbn [bind]. rewrite Er. cbn [bind].
    destruct Rr as [->|(b' & -> & Pb' & S')].
    - destruct (Z seen F) as (r & E & ->). exists PEmpty. auto.
    - apply IH; auto. intros a' Ha'. destruct (H a' (or_intror Ha')) as [S|Dj]; [left; auto|right]. intros v Va Vb. apply (Dj v); auto.
  Qed.
  (** ** the sets of the cases *)
  Lemma wf_iv_real : forall (i : interval N) v, wf_iv i -> iv_mem v i -> exists r, v = Fin r.
  Proof.
    intros i v (_ & Wa & Wb) (A & B). destruct v; eauto; exfalso; destruct (iv_a i) eqn:Ea, (iv_b i) eqn:Eb; rewrite ?(Wa eq_refl) in A; rewrite ?(Wb eq_refl) in B; destruct (iv_lo i), (iv_ro i); unfold ele in *; simpl in A, B; intuition congruence.
  Qed.
  Lemma case_part : forall x (v : sval), nominal x = false -> plain_case nominal cuts x v -> exists b, value_to_set v = Ok (PB b) /\ part (cuts x) b /\ ((exists c, v = VReal c) -> single b) /\
    (forall q, bmem q b -> exists r, q = RNum (Fin r) /\ forall w, w x = FNum r -> matches (N:=N) x v w).
  Proof.
    intros x v En (Cv & H). specialize (H En). destruct v as [[|[| |i]|]|s|c]; try contradiction.
    - destruct Cv as (W & _ & _). exists (BInt i). split; auto. split; [split; [left; eauto|]; split; auto; split; auto; now apply ends_int|]. split; [intros (c & Q); discriminate|].
      intros [q|q] Hq; [|destruct Hq]. destruct (wf_iv_real i q W Hq) as (r & ->). exists r. split; auto. intros w Ew. cbn [matches]. rewrite Ew. exact Hq.
    - exists (BReal [Fin c]). split; [reflexivity|]. split; [split; [right; exists (Fin c); auto|]; split; [split; [constructor; auto; constructor|discriminate]|]; split; [reflexivity|]|].
      + split; [intros i [Q|[]]; discriminate|]. intros vs y r Hv Hy Er. destruct Hv as [Hv|[]]. injection Hv as <-. destruct Hy as [<-|[]]. left. cbn in Er. now injection Er as <-.
      + split; [intros _; exists (Fin c); auto|]. intros q Hq. destruct q as [q|q]; [|destruct Hq]. destruct Hq as (y & [<-|[]] & Q). cbn in Q. subst q. exists (toR c). split; auto.
  Qed.
  Definition kind_for (x : string) (v : pset) : Prop := if nominal x then texts v else v = PEmpty \/ exists b, v = PB b /\ part (cuts x) b.
  Lemma cases_apart : forall x (vs : list sval), Forall (plain_case nominal cuts x) vs -> ForallOrdPairs (separate nominal x) vs ->
    exists sets, mapM value_to_set vs = Ok sets /\ exists ds, disjoint_sets io [] sets = Ok ds /\ Forall (kind_for x) ds.
  Proof.
    intros x vs F Sp. unfold kind_for. destruct (nominal x) eqn:En.
    - assert (E : exists sets, mapM value_to_set vs = Ok sets /\ Forall (fun u => wf u /\ nominal_set u) sets).
      { clear Sp. induction F as [|v vs (Cv & _) F (sets & Es & Fs)]; [exists []; auto|]. cbn [mapM].
        assert (K : exists u, value_to_set v = Ok u /\ wf u /\ nominal_set u).
        { destruct v as [u|s|c]; cbn in *.
          - destruct Cv as (Wu & _ & Su). unfold sort_set in Su. rewrite En in Su. eauto.
          - eexists. split; [reflexivity|]. split; [|exact Logic.I]. split; [constructor; auto; constructor|]. left. discriminate.
          - congruence. }
        destruct K as (u & Eu & Wu & Nu). rewrite Eu. cbn [bind]. rewrite Es. cbn [bind]. exists (u :: sets). auto. }
      destruct E as (sets & Es & Fs). exists sets. split; auto. clear Es F Sp.
      assert (G : forall seen, Forall (fun u => wf u /\ nominal_set u) seen -> exists ds, disjoint_sets io seen sets = Ok ds /\ Forall texts ds).
      { induction Fs as [|u sets (Wu & Nu) Fs IH]; intros seen Fn; [exists []; auto|]. cbn [disjoint_sets]. destruct (less_texts seen u Fn (conj Wu (or_intror Nu))) as (r & Er & Tr). unfold less in Er. rewrite Er. cbn [bind].
        destruct (IH (seen ++ [u])) as (ds & Ed & Fd); [apply Forall_app; auto|]. rewrite Ed. cbn [bind]. exists (r :: ds). auto. }
      exact (G [] (Forall_nil _)).
    - assert (E : exists bs, mapM value_to_set vs = Ok (map PB bs) /\ Forall (part (cuts x)) bs /\ ForallOrdPairs (fun a b => single b \/ disjoint a b) bs).
      { assert (G : forall vs : list sval, Forall (plain_case nominal cuts x) vs -> exists bs, mapM value_to_set vs = Ok (map PB bs) /\ Forall (part (cuts x)) bs /\
          Forall2 (fun (v : sval) (b : bset N) => ((exists c, v = VReal c) -> single b) /\ forall q, bmem q b -> exists r, q = RNum (Fin r) /\ forall w, w x = FNum r -> matches (N:=N) x v w) vs bs).
        { clear - En. intros vs F. induction F as [|v vs Cv F (bs & Es & Fb & F2)]; [exists []; repeat split; constructor|]. cbn [mapM]. destruct (case_part x v En Cv) as (b & Eb & Pb & H). rewrite Eb. cbn [bind]. rewrite Es. cbn [bind]. exists (b :: bs). repeat split; auto. }
        destruct (G vs F) as (bs & Es & Fb & F2). exists bs. split; auto. split; auto. clear Es Fb F G. revert Sp. induction F2 as [|v b vs bs (S1 & M1) F2 IH]; intros Sp; [constructor|]. inversion Sp as [|? ? Sv Sp']; subst. constructor; auto.
        clear -Sv F2 M1 En. induction F2 as [|u c vs bs (S2 & M2) F2 IH]; [constructor|]. inversion Sv as [|? ? Su Sv']; subst. constructor; auto. destruct (Su En) as [K|K]; [left; auto|]. right. intros q Hb Hc.
        destruct (M1 q Hb) as (r & -> & Mr). destruct (M2 _ Hc) as (r' & Q & Mr'). injection Q as <-. apply (K (fun _ => FNum r)); auto. }
      destruct E as (bs & Es & Fb & Op). exists (map PB bs). split; auto. clear Es F Sp.
      assert (G : forall seen, Forall (part (cuts x)) seen -> (forall a b, In a seen -> In b bs -> single b \/ disjoint a b) ->
        exists ds, disjoint_sets io (map PB seen) (map PB bs) = Ok ds /\ Forall (fun v => v = PEmpty \/ exists b, v = PB b /\ part (cuts x) b) ds).
      { induction Op as [|b bs Ob Op IH]; intros seen Fs H; [exists []; auto|]. inversion Fb as [|? ? Pb Fb']; subst. cbn [map disjoint_sets]. destruct (less_parts (cuts x) seen b Fs Pb) as (r & Er & Rr); [intros a Ha; apply H; simpl; auto|]. unfold less in Er. rewrite Er. cbn [bind].
        destruct (IH Fb' (seen ++ [b])) as (ds & Ed & Fd).
        - apply Forall_app; auto.
        - intros a c Ha Hc. apply in_app_iff in Ha. destruct Ha as [Ha|[<-|[]]]; [apply H; simpl; auto|]. rewrite Forall_forall in Ob. auto.
        - rewrite map_app in Ed. cbn [map] in Ed. rewrite Ed. cbn [bind]. exists (r :: ds). auto. }
      apply (G []); [constructor|]. intros a b [].
  Qed.
  Lemma kind_event : forall x v, kind_for x v -> exists e, t_in io (TId x) v = Ok e /\ is_basic e = true /\ direct nominal cuts none e.
  Proof.
    intros x v H. assert (K : wf v /\ match v with PUnion _ => False | _ => True end).
    { unfold kind_for in H. destruct (nominal x); [destruct H as (W & [->|Nv]); split; auto; destruct v; auto|]. destruct H as [->|(b & -> & Pb)]; split; simpl; auto. apply Pb. }
    destruct K as (W & Nu). assert (E : exists k, t_in io (TId x) v = Ok (EBasic k (TId x) v)).
    { destruct v as [|[| |]|]; cbn; eauto. contradiction. }
    destruct E as (k & Ek). exists (EBasic k (TId x) v). split; auto. split; auto. destruct (t_in_ok io (TId x) v (EBasic k (TId x) v)) as (G & _); [exact Logic.I|reflexivity|exact W|exact Ek|]. split; auto. constructor; [|constructor].
    exists k, x, v. split; auto. unfold kind_for in H. destruct (nominal x); [apply H|].
    destruct H as [->|(b & -> & (Ab & _ & Hi & Ee))].
    - cbn in Ek. injection Ek as <-. split; [discriminate|]. split; [exact Logic.I|]. split; auto. split; intros; contradiction.
    - split; [destruct Ab as [(i & ->)|(y & ->)]; injection Ek as <-; discriminate|]. split; [destruct Ab as [(i & ->)|(y & ->)]; exact Logic.I|]. auto.
  Qed.
  Theorem switch_events_total : forall x (vs : list sval), Forall (plain_case nominal cuts x) vs -> ForallOrdPairs (separate nominal x) vs ->
    exists es, switch_events io x vs = Ok (map Some es) /\ Forall (fun e => is_basic e = true /\ direct nominal cuts none e) es.
  Proof.
    intros x vs F Sp. destruct (cases_apart x vs F Sp) as (sets & Es & ds & Ed & Fd). unfold switch_events. rewrite Es. cbn [bind]. rewrite Ed. cbn [bind]. clear Es Ed.
    induction Fd as [|v ds Kv Fd (es & E & Fe)]; [exists []; auto|]. cbn [mapM]. destruct (kind_event x v Kv) as (e & Ee & K). rewrite Ee. cbn [bind]. rewrite E. cbn [bind]. exists (e :: es). auto.
  Qed.
End Cases.
