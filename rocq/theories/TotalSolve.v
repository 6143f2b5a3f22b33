(** Solving events that compare one variable directly succeeds; so does bringing events of
    direct comparisons into normal form. *)
From Coq Require Import List Bool String Reals Lra Lia ZArith Permutation.
From Verif Require Import Base Num Sets SetSpec SetIv SetProofs SetOr SetOps SetAlg SetBuilt
  Poly Trans TransSpec TransFacts PolyProofs InvProofs InvMain EvProofs ArithProofs
  Dnf DnfSpec DnfProofs DnfUnion PropDnf LeafProofs LeafEvents Logs Spe SpeSpec SpeFacts SpeCons TotalSpec TotalEnds TotalSets.
Import ListNotations.

Section Solve.
  Context {N : numsys} (io : iterorder N) (po : polyoracle N) (fuel : nat).
  Notation pset := (pset N).
  Notation tr := (tr N).
  Context (nominal : string -> bool) (cuts points : string -> R -> Prop).
  Notation cmp := (cmp (N:=N) nominal cuts points).
  Notation cmps := (cmps (N:=N) nominal cuts points).
  Notation fits := (fits (N:=N) nominal cuts points).

  Lemma ext_total : forall v : pset, wf v -> real_set v -> inffree v -> not_union v -> exists r, pand io ExtReals v = Ok r /\ not_union r.
  Proof.
    intros [|c|u] W R I Nu; [exists PEmpty; split; [reflexivity|exact Logic.I]| |contradiction]. unfold ExtReals. cbn [pand]. rewrite and_ub_real by exact R. unfold and_ub_body.
    set (u := [BReal [NInf; PInf]; BInt (mkIv NInf PInf true true)]). pose proof (ExtReals_wf (N:=N)) as We. apply wf_union_iff in We. destruct We as (P & _). fold u in P.
    destruct (u_atoms_wf u P) as (Wa & Na). pose proof (u_intervals_perm io u P) as Pm.
    destruct (and_pb_ok (u_atoms u) c Wa Na W) as (ra & Ea & (A & B & C) & Nra). rewrite Ea. cbn [bind].
    assert (Er : is_empty ra = true).
    { change (u_atoms u) with (PB (BReal [NInf; PInf]) : pset) in Ea, B. destruct ra as [|b|]; [reflexivity| |contradiction].
      assert (exists vs, b = BReal vs) as (vs & ->).
      { destruct c as [| |]; cbn [and_pb and_bb] in Ea; injection Ea as Ea; [contradiction| |]; unfold and_real_real, and_real_iv, freal_or_empty in Ea; destruct (dedup eeqb _); try discriminate Ea; injection Ea as <-; eauto. }
      simpl in A. destruct A as (_ & A). destruct vs as [|y vs]; [tauto|]. exfalso. destruct (B (RNum (eR y))) as (B1 & _). destruct B1 as (B1 & B2); [exists y; simpl; auto|].
      destruct (I (eR y)) as (q & Eq); [exact B2|]. destruct B1 as (z & Hz & Ez). destruct Hz as [<-|[<-|[]]]; rewrite Eq in Ez; discriminate. }
    rewrite Er. assert (exists i, u_intervals io u = [i]) as (i & Ei).
    { pose proof (Permutation_length Pm) as L. destruct (u_intervals io u) as [|i [|j l]]; try discriminate L. eauto. }
    rewrite Ei. cbn [mapM]. destruct (u_intervals_wf io u P) as (Wi & _). rewrite Ei in Wi. inversion Wi; subst.
    destruct (and_bb_ok (BInt i) c) as (r & Hr & _ & Nr); auto. rewrite Hr. cbn [bind filter]. destruct (is_empty r) eqn:Er'; cbn [negb]; eexists; (split; [reflexivity|]); auto; exact Logic.I.
  Qed.

  Lemma bit_ne : eeqb (bit (N:=N) false) (bit true) = false.
  Proof. destruct (eeqb (bit (N:=N) false) (bit true)) eqn:E; auto. apply eeqb_eR in E. cbn in E. rewrite !nint_ok in E. injection E as E. lra. Qed.
  Lemma pand_one : pand io (bits (N:=N)) (PB (BReal [bit true])) = Ok (PB (BReal [bit true])).
  Proof.
    unfold bits. cbn [pand and_bb]. unfold and_real_real, freal_or_empty. cbn [filter]. unfold inb. cbn [existsb]. rewrite bit_ne, eeqb_refl. cbn. reflexivity.
  Qed.
  Lemma cmp_basic : forall x k t v, cmp x (EBasic k t v) -> t = TId x /\ gev (EBasic k t v) /\ fits x k v.
  Proof. intros x k t v (G & k1 & v1 & E & F). injection E as -> -> ->. auto. Qed.
  Lemma invert_cmp : forall x l, 1 <= fuel -> cmp x l -> exists r, invert io po fuel l (PB (BReal [bit true])) = Ok r /\ (nominal x = true -> wf r /\ (r = PEmpty \/ nominal_set r)) /\ (nominal x = false -> ends (cuts x) (points x) r /\ not_union r).
  Proof.
    intros x l Hf C. pose proof C as (G & k & v & -> & F). destruct fuel as [|f] eqn:Ef; [lia|]. pose proof (gev_wf _ _ _ G) as (_ & W & K & _).
    assert (Noninj : k <> KNom -> invert io po (S f) (EBasic k (TId x) v) (PB (BReal [bit true])) = invert io po (S f) (TId x) v).
    { intros Nk. destruct k; [| |tauto]; cbn [invert range dispatch bind]; rewrite pand_one; cbn [bind]; unfold finv_all; cbn [mapM]; unfold finv_event; rewrite eeqb_refl; reflexivity. }
    destruct (nominal x) eqn:En.
    - unfold TotalSets.fits in F. rewrite En in F. destruct k.
      + destruct K as (i & ->). destruct F as [F|F]; [discriminate|destruct F].
      + rewrite Noninj by discriminate. destruct F as [-> |F]; [|destruct K as [-> |(vs & ->)]; destruct F]. exists PEmpty. split; [reflexivity|]. split; [|discriminate]. intros _. split; [exact Logic.I|auto].
      + cbn [invert range dispatch bind]. rewrite pand_one. cbn [bind]. unfold invert_nominal. replace (set_eqb eeqb [bit true] [bit false]) with false.
        2: { symmetry. unfold set_eqb. unfold inb; cbn [forallb existsb andb orb]. destruct (eeqb (bit (N:=N) true) (bit false)) eqn:E; [|reflexivity]. apply eeqb_eR in E. cbn in E. rewrite !nint_ok in E. injection E as E. lra. }
        replace (set_eqb eeqb [bit true] [bit true]) with true by (symmetry; unfold set_eqb; unfold inb; cbn [forallb existsb]; rewrite eeqb_refl; reflexivity).
        unfold finv_nominal. rewrite eeqb_refl. cbn [is_id negb]. destruct (is_empty v) eqn:Ee; eexists; (split; [reflexivity|]); (split; [|discriminate]); intros _; auto. split; [exact Logic.I|auto].
    - destruct (fits_inffree nominal cuts points x k v G F En) as (R & I). unfold TotalSets.fits in F. rewrite En in F. destruct F as (Nk & _ & _ & He). rewrite Noninj by auto.
      assert (Nu : not_union v) by (destruct v; simpl; auto; now apply gev_not_union in G).
      cbn [invert range dispatch bind]. destruct (ext_total v W R I Nu) as (r & Hr & Nr). rewrite Hr. cbn [bind].
      assert (Rr : real_set r) by (destruct (ExtReals_f (N:=N)) as (Wx & Rx & _); destruct (pand_f io _ _ _ Wx W Hr) as (_ & _ & Q & _); auto).
      assert (Er : ends (cuts x) (points x) r). { apply (pand_ends io (cuts x) (points x) ExtReals v r); auto. split; [intros i [E|[E|[]]]; [discriminate|]; injection E as <-; intros q [E|E]; discriminate|]. intros vs y q [E|[E|[]]]; [|discriminate]. injection E as <-. intros [<-|[<-|[]]]; discriminate. }
      destruct r as [|[]|]; simpl in Nr, Rr; try contradiction; eexists; (split; [reflexivity|]); (split; [discriminate|]); intros _; auto.
  Qed.

  (** ** Events of one variable as a leaf is asked: a literal or a disjunction of literals *)
  Definition flat (x : string) (e : tr) : Prop := cmp x e \/ exists l, e = EOr l /\ l <> [] /\ Forall (cmp x) l.
  Lemma flat_gev : forall x e, flat x e -> gev e.
  Proof.
    intros x e [(G & _)|(l & -> & Ne & F)]; auto. split; [|reflexivity]. cbn [good]. split; auto. apply All_intro. intros a Ha. rewrite Forall_forall in F. apply (F a Ha).
  Qed.
  Lemma cmp_symbols : forall x l, cmp x l -> symbols l = [x].
  Proof. intros x l (_ & k & v & -> & _). reflexivity. Qed.
  Lemma flat_symbols : forall x e, flat x e -> symbols e = [x].
  Proof.
    intros x e [C|(l & -> & Ne & F)]; [now apply cmp_symbols|]. cbn [symbols].
    assert (I : forall z, In z (sunions (map symbols l)) <-> z = x).
    { intros z. rewrite in_sunions. split.
      - intros (s & Hs & Hz). apply in_map_iff in Hs. destruct Hs as (a & <- & Ha). rewrite Forall_forall in F. rewrite (cmp_symbols x a (F a Ha)) in Hz. destruct Hz as [<-|[]]. reflexivity.
      - intros ->. destruct l as [|a l]; [tauto|]. exists (symbols a). split; [now left|]. inversion F; subst. rewrite (cmp_symbols x a) by auto. now left. }
    assert (Nd : NoDup (sunions (map symbols l))) by (apply sunions_nodup).
    destruct (sunions (map symbols l)) as [|a [|b m]].
    - destruct (I x) as (_ & K). destruct (K eq_refl).
    - f_equal. apply I. now left.
    - exfalso. inversion Nd as [|? ? Na _]; subst. apply Na. rewrite (proj1 (I a)) by (now left). rewrite (proj1 (I b)) by (right; now left). now left.
  Qed.
  Lemma flat_only : forall x e, flat x e -> only x e.
  Proof. intros x e F y Hy. rewrite (flat_symbols x e F) in Hy. destruct Hy as [<-|[]]. reflexivity. Qed.
  Lemma flat_num : forall x e, flat x e -> nominal x = false -> num_event e.
  Proof.
    intros x e F En. assert (L : forall l, cmp x l -> Forall num_lit (lits l)).
    { intros l (_ & k & v & -> & K). unfold TotalSets.fits in K. rewrite En in K. cbn [lits]. constructor; auto. destruct k; simpl; tauto. }
    destruct F as [C|(l & -> & _ & F)]; [now apply L|]. unfold num_event. cbn [lits]. apply lits_list. eapply Forall_impl; [|exact F]. exact L.
  Qed.
  Lemma union_nominal : forall l : list pset, l <> [] -> Forall (fun r => wf r /\ (r = PEmpty \/ nominal_set r)) l -> exists r, make_union io l = Ok r /\ wf r /\ (r = PEmpty \/ nominal_set r).
  Proof.
    intros [|a l] Ne F; [tauto|]. clear Ne. inversion F as [|? ? (Wa & Na) Fl]; subst. unfold make_union. cbn [reduceM]. clear F. revert a Wa Na. induction Fl as [|b l (Wb & Nb) Fl IH]; intros a Wa Na; cbn [foldM]; [eauto|].
    destruct (or_nominal io a b Wa Wb Na Nb) as (r & E & Nr). rewrite E. cbn [bind]. destruct (por_f io a b r Wa Wb E) as (Wr & _). auto.
  Qed.
  Lemma solve_flat : forall x e, 1 <= fuel -> flat x e -> exists v, solve io po fuel e = Ok v /\ wf v /\
    (if nominal x then v = PEmpty \/ nominal_set v else real_set v /\ ends (cuts x) (points x) v).
  Proof.
    intros x e Hf F. pose proof (flat_gev x e F) as G. pose proof (flat_only x e F) as On. pose proof (flat_symbols x e F) as Sy.
    destruct (nominal x) eqn:En.
    - destruct F as [C|(l & -> & Ne & Fl)].
      + pose proof C as (_ & k & v & -> & K). unfold TotalSets.fits in K. rewrite En in K. exists v. split; [reflexivity|]. split; auto. now apply gev_wf in G.
      + unfold solve. cbn [id_values]. rewrite Sy. cbn [List.length Nat.ltb Nat.leb].
        assert (exists rs, mapM (fun e => invert io po fuel e (PB (BReal [bit true]))) l = Ok rs /\ Forall (fun r => wf r /\ (r = PEmpty \/ nominal_set r)) rs) as (rs & Hm & Fr).
        { clear Ne G On Sy. induction Fl as [|a l Ca Fl IH]; [exists []; split; [reflexivity|constructor]|]. destruct IH as (rs & E & Fr). destruct (invert_cmp x a Hf Ca) as (r & Er & Kr & _). exists (r :: rs). cbn [mapM]. rewrite Er. cbn [bind]. rewrite E. cbn [bind]. split; [reflexivity|]. constructor; auto. }
        destruct (union_nominal rs) as (r & Er & Wr & Nr); auto. { intros ->. destruct l; [tauto|]. cbn [mapM] in Hm. destruct (invert _ _ _ _ _); [|discriminate]. cbn [bind] in Hm. destruct (mapM _ l); discriminate. }
        exists r. split; auto. cbn [invert]. destruct fuel as [|f]; [lia|]. cbn [dispatch range bind]. rewrite pand_one. cbn [bind]. rewrite Hm. exact Er.
    - pose proof (flat_num x e F En) as Nm.
      assert (exists v, solve io po fuel e = Ok v /\ wf v /\ ends (cuts x) (points x) v) as (v & E & W & Hv); [|exists v; split; [exact E|]; split; [exact W|]; split; [exact (solve_real io po fuel x e v G On Nm E)|exact Hv]].
      destruct F as [C|(l & -> & Ne & Fl)].
      + pose proof C as (_ & k & v & -> & K). exists v. split; [reflexivity|]. split; [now apply gev_wf in G|]. unfold TotalSets.fits in K. rewrite En in K. tauto.
      + unfold solve. cbn [id_values]. rewrite Sy. cbn [List.length Nat.ltb Nat.leb].
        assert (exists rs, mapM (fun e => invert io po fuel e (PB (BReal [bit true]))) l = Ok rs /\ Forall (fun r => wf r /\ real_set r /\ ends (cuts x) (points x) r) rs) as (rs & Hm & Fr).
        { clear Ne G On Sy Nm. induction Fl as [|a l Ca Fl IH]; [exists []; split; [reflexivity|constructor]|]. destruct IH as (rs & E & Fr). destruct (invert_cmp x a Hf Ca) as (r & Er & _ & Hr). exists (r :: rs). cbn [mapM]. rewrite Er. cbn [bind]. rewrite E. cbn [bind]. split; [reflexivity|]. constructor; auto.
          enough (wf r /\ real_set r) by (destruct (Hr En); tauto). assert (Fa : flat x a) by (now left). apply (invert_real io po fuel x a (flat_gev x a Fa) (flat_only x a Fa) (flat_num x a Fa En) (PB (BReal [bit true])) r); auto. apply BReal1. }
        assert (Wrs : Forall wf rs) by (eapply Forall_impl; [|exact Fr]; simpl; tauto).
        destruct (reduce_por_total io rs) as (r & Er).
        { intros ->. destruct l; [tauto|]. cbn [mapM] in Hm. destruct (invert _ _ _ _ _); [|discriminate]. cbn [bind] in Hm. destruct (mapM _ l); discriminate. }
        { exact Wrs. }
        { eapply Forall_impl; [|exact Fr]; simpl; tauto. }
        pose proof (proj1 (make_union_f io rs r Wrs Er)) as Wr.
        exists r. split; [|split; [exact Wr|]]. 2: { apply (reduce_por_ends io (cuts x) (points x) rs r); auto. eapply Forall_impl; [|exact Fr]. simpl; tauto. } cbn [invert]. destruct fuel as [|f]; [lia|]. cbn [dispatch range bind]. rewrite pand_one. cbn [bind]. rewrite Hm. exact Er.
  Qed.

  (** ** Normal forms *)
  Lemma and_cmp : forall x a b c, cmp x a -> cmp x b -> ev_and io a b = Ok c -> cmp x c.
  Proof.
    intros x a b c Ca Cb H. pose proof Ca as (Ga & k & v & -> & F1). pose proof Cb as (Gb & j & u & -> & F2). cbn [ev_and teqb] in H. rewrite String.eqb_refl in H. inv_bind H.
    pose proof (gev_wf _ _ _ Ga) as (_ & W1 & _). pose proof (gev_wf _ _ _ Gb) as (_ & W2 & _).
    destruct (event_of_set (TId x) r) as [y|] eqn:Ey.
    - injection H as <-. exact (merge_and io nominal cuts points x k v j u r y Ca Cb E Ey).
    - exfalso. destruct v as [|b1|u1]; [injection E as <-; discriminate Ey| |now apply gev_not_union in Ga].
      destruct u as [|b2|u2]; [injection E as <-; discriminate Ey| |now apply gev_not_union in Gb].
      destruct (and_bb_ok b1 b2 W1 W2) as (r' & E' & _ & Nr). cbn [pand] in E. assert (r' = r) by congruence. subst r'. destruct r as [|[]|]; try discriminate Ey. exact Nr.
  Qed.
  Definition cclause (c : clause (N:=N)) : Prop := c <> [] /\ Forall (fun p => cmp (fst p) (snd p)) c.
  Lemma add_key_cmp : forall c x a c', Forall (fun p => cmp (fst p) (snd p)) c -> cmp x a -> add_key io c x a = Ok c' -> cclause c'.
  Proof.
    induction c as [|(k, b) c IH]; intros x a c' F C H; cbn [add_key] in H.
    - injection H as <-. split; [discriminate|auto].
    - inversion F as [|? ? Cb F']; subst. cbn [fst snd] in Cb. destruct (String.eqb_spec x k) as [<-|Nk]; inv_bind H; injection H as <-; (split; [discriminate|]).
      + constructor; auto. cbn [fst snd]. now apply (and_cmp x b a).
      + constructor; auto. now apply (IH x a).
  Qed.
  Lemma factor_lit_cmp : forall (e a : tr) p, (exists x, cmp x a) -> factor_lit (map (fun s => (s, s)) (symbols e)) a = Ok p -> cmp (fst p) (snd p).
  Proof.
    intros e a p (x & C) H. unfold factor_lit in H. rewrite (cmp_symbols x a C) in H. destruct (lookup x _) as [k|] eqn:L; [|discriminate]. injection H as <-. cbn [fst snd].
    assert (k = x); [|subst; exact C]. revert L. generalize (symbols e). induction l as [|y l IH]; [discriminate|]. cbn [map lookup]. destruct (String.eqb_spec x y); [intros [= <-]; auto|auto].
  Qed.
  Lemma basic_lits : forall a : tr, is_basic a = true -> lits a = [a].
  Proof. intros []; try discriminate; reflexivity. Qed.
  Lemma factor_clause_cmp : forall (e a : tr) c, cmps a -> factor_clause io (map (fun s => (s, s)) (symbols e)) a = Ok c -> cclause c.
  Proof.
    intros e a c (G & F) H. destruct a as [| | | | | | | |k t v|l|l]; try discriminate H; cbn [factor_clause] in H.
    - inv_bind H. injection H as <-. inversion F; subst. split; [discriminate|]. constructor; auto. now apply (factor_lit_cmp e (EBasic k t v)).
    - unfold factor_and in H. inv_bind H. apply passert_Ok in E. rewrite forallb_forall in E. apply gev_and in G. destruct G as (Nl & Gl). cbn [lits] in F. apply lits_list in F.
      assert (Fl : Forall (fun a => exists x, cmp x a) l).
      { apply Forall_forall. intros a Ha. rewrite Forall_forall in F. specialize (F a Ha). rewrite (basic_lits a (E a Ha)) in F. now inversion F. }
      assert (K : forall m c0, Forall (fun a => exists x, cmp x a) m -> Forall (fun p => cmp (fst p) (snd p)) c0 -> foldM (fun c e0 => do ke <- factor_lit (map (fun s => (s, s)) (symbols e)) e0; add_key io c (fst ke) (snd ke)) m c0 = Ok c ->
        Forall (fun p => cmp (fst p) (snd p)) c /\ (m <> [] \/ c0 <> [] -> c <> [])).
      { clear. induction m as [|a m IH]; intros c0 Fm F0 H; cbn [foldM] in H; [injection H as <-; split; [auto|intros [K|K]; congruence]|]. inversion Fm; subst. inv_bind H. inv_bind E.
        pose proof (factor_lit_cmp e a _ ltac:(eassumption) E0) as Cp. destruct (add_key_cmp _ _ _ _ F0 Cp E) as (N1 & F1). destruct (IH _ ltac:(assumption) F1 H) as (A & B). split; auto. }
      destruct (K l [] Fl ltac:(constructor) H) as (A & B). split; auto.
  Qed.
  Lemma cmps_list : forall l, Forall cmps l <-> Forall gev l /\ Forall (fun e => Forall (fun a => exists x, cmp x a) (lits e)) l.
  Proof. intros l. induction l as [|a l IH]; [split; auto|]. rewrite !Forall_cons_iff, IH. unfold TotalSets.cmps. tauto. Qed.
  Lemma factor_cmp : forall e f, cmps e -> dnf_factor io e = Ok f -> Forall cclause f.
  Proof.
    intros e f C H. unfold dnf_factor in H. destruct e as [| | | | | | | |k t v|l|l] eqn:Ee; try discriminate H; rewrite <- Ee in *.
    - rewrite Ee in H. cbn [dnf_factor_with] in H. inv_bind H. injection H as <-. constructor; [|constructor]. rewrite <- Ee in E. now apply (factor_clause_cmp e e).
    - assert (Cl : Forall cmps l).
      { subst e. destruct C as (G & F). apply gev_or in G. destruct G as (_ & G). cbn [lits] in F. apply lits_list in F. apply cmps_list. auto. }
      rewrite Ee in H. cbn [dnf_factor_with] in H. inv_bind H. apply mapM_Forall2 in H. rewrite <- Ee in H. clear -H Cl. induction H; constructor; inversion Cl; subst; auto. now apply (factor_clause_cmp e x).
    - rewrite Ee in H. cbn [dnf_factor_with] in H. inv_bind H. injection H as <-. constructor; [|constructor]. rewrite <- Ee in E. now apply (factor_clause_cmp e e).
  Qed.
  Lemma to_dnf_total : forall e, cmps e -> exists d, to_dnf e = Ok d /\ cmps d /\ is_dnf d.
  Proof.
    intros e (G & F). destruct (to_dnf_ok e G) as (d & E & Gd & Dd & _). exists d. split; auto. split; auto. split; auto. rewrite Forall_forall in *. intros a Ha. apply F. now apply (to_dnf_lits e d).
  Qed.
  Definition csol (c : list (string * pset)) : Prop := c <> [] /\ Forall (fun p => exists k, cmp (fst p) (EBasic k (TId (fst p)) (snd p))) c.
  Lemma solve_clause_total : forall c, cclause c -> exists s, solve_clause io po fuel c = Ok s /\ csol s.
  Proof.
    intros c (Ne & F). unfold solve_clause.
    assert (exists s, mapM (fun p => do v <- solve io po fuel (snd p); Ok (fst p, v)) c = Ok s /\ Forall (fun p => exists k, cmp (fst p) (EBasic k (TId (fst p)) (snd p))) s /\ List.length s = List.length c) as (s & E & Fs & L).
    { clear Ne. induction F as [|(x, a) c C F IH]; [exists []; split; [reflexivity|split; [constructor|reflexivity]]|]. destruct IH as (s & E & Fs & L). cbn [fst snd] in C. pose proof C as (_ & k & v & -> & _). exists ((x, v) :: s). cbn [mapM snd fst]. unfold solve at 1. cbn [id_values bind].
      rewrite E. cbn [bind]. split; [reflexivity|]. split; [|cbn [List.length]; congruence]. constructor; auto. exists k. exact C. }
    exists s. split; auto. split; auto. intros ->. destruct c; [tauto|discriminate].
  Qed.
  Lemma t_in_cmp : forall x k v, cmp x (EBasic k (TId x) v) -> v <> PEmpty -> t_in io (TId x) v = Ok (EBasic k (TId x) v).
  Proof.
    intros x k v (G & _) Ne. destruct (gev_wf _ _ _ G) as (_ & W & K & _). destruct k.
    - destruct K as (i & ->). reflexivity.
    - destruct K as [-> |(vs & ->)]; [tauto|reflexivity].
    - destruct K as [-> |K]; [tauto|]. destruct v as [|[]|]; simpl in K; try contradiction. reflexivity.
  Qed.
  Lemma conj_total : forall c, csol c -> all_nonempty c = true -> exists d, conj_of io c = Ok d /\ cmps d.
  Proof.
    intros c (Ne & F) A. unfold conj_of, all_nonempty in *. rewrite forallb_forall in A.
    assert (exists es, mapM (fun p => t_in io (TId (fst p)) (snd p)) c = Ok es /\ Forall cmps es /\ List.length es = List.length c) as (es & E & Fs & L).
    { clear Ne. induction F as [|(x, v) c (k & C) F IH]; [exists []; split; [reflexivity|split; [constructor|reflexivity]]|]. destruct IH as (s & E & Fs & L); [intros p Hp; apply A; now right|]. cbn [fst snd] in C. exists (EBasic k (TId x) v :: s).
      cbn [mapM fst snd]. rewrite (t_in_cmp x k v C). 2: { specialize (A (x, v) ltac:(now left)). cbn [snd] in A. intros ->. discriminate. }
      cbn [bind]. rewrite E. cbn [bind]. split; [reflexivity|]. split; [|cbn [List.length]; congruence]. constructor; auto. split; [apply C|]. cbn [lits]. eauto. }
    rewrite E. cbn [bind]. apply (reduce_total nominal cuts points (ev_and io)); auto; [intros; now apply (and_total io nominal cuts points)|]. intros ->. destruct c; [tauto|discriminate].
  Qed.
  Lemma normalize_total : forall e, cmps e -> exists o, dnf_normalize io po fuel e = Ok o /\ (forall d, o = Some d -> cmps d).
  Proof.
    intros e C. destruct (dnf_normalize_cases io po fuel e) as [(k & x & v & -> & E)|E].
    - exists (Some (EBasic k (TId x) v)). split; auto. intros d [= <-]. auto.
    - rewrite E. clear E. unfold normalize_general. destruct (to_dnf_total e C) as (d & -> & Cd & Dd). cbn [bind]. destruct (C16_total io d) as (f & Hf); [apply Cd|auto|now apply (cmps_on_vars nominal cuts points)|]. rewrite Hf. cbn [bind].
      pose proof (factor_cmp d f Cd Hf) as Ff.
      assert (exists sols, mapM (solve_clause io po fuel) f = Ok sols /\ Forall csol sols) as (sols & Es & Fs).
      { clear -Ff. induction Ff as [|c f Cc Ff IH]; [exists []; split; [reflexivity|constructor]|]. destruct IH as (s & E & F). destruct (solve_clause_total c Cc) as (x & Ex & Fx). exists (x :: s). cbn [mapM]. rewrite Ex. cbn [bind]. rewrite E. cbn [bind]. auto. }
      rewrite Es. cbn [bind]. destruct (filter all_nonempty sols) as [|s0 sl] eqn:Ef; [eexists; split; [reflexivity|discriminate]|]. rewrite <- Ef.
      assert (Fu : Forall (fun c => csol c /\ all_nonempty c = true) (unseen [] (filter all_nonempty sols))).
      { apply Forall_forall. intros c Hc. apply unseen_incl in Hc. apply filter_In in Hc. destruct Hc as (Hc & A). rewrite Forall_forall in Fs. auto. }
      assert (exists cs, mapM (conj_of io) (unseen [] (filter all_nonempty sols)) = Ok cs /\ Forall cmps cs /\ List.length cs = List.length (unseen [] (filter all_nonempty sols))) as (cs & Ec & Fc & L).
      { clear -Fu. induction Fu as [|c l (Cc & A) Fu IH]; [exists []; split; [reflexivity|split; [constructor|reflexivity]]|]. destruct IH as (cs & E & F & L). destruct (conj_total c Cc A) as (d & Ed & Cd). exists (d :: cs). cbn [mapM]. rewrite Ed. cbn [bind]. rewrite E. cbn [bind List.length].
        split; [reflexivity|]. split; auto. }
      rewrite Ec. cbn [bind]. destruct (reduce_total nominal cuts points (ev_or io)) with (l := cs) as (g & Eg & Cg); auto.
      { intros; now apply (or_total io nominal cuts points). }
      { intros ->. pose proof (unseen_nonempty (filter all_nonempty sols)) as K. destruct (unseen [] (filter all_nonempty sols)); [|discriminate L]. rewrite Ef in K. apply K; [discriminate|reflexivity]. }
      rewrite Eg. cbn [bind]. destruct (to_dnf_total g Cg) as (h & -> & Ch & _). cbn [bind]. eexists. split; [reflexivity|]. intros ? [= <-]. exact Ch.
  Qed.
End Solve.
