(** Asking for the probability of comparisons of derived variables gets an answer. *)
From Coq Require Import List Bool String Reals Lra Lia ZArith QArith Qreals Permutation PeanoNat.
From Verif Require Import Base Num Sets SetSpec SetIv SetProofs SetOr SetOps SetAlg SetBuilt
  Poly Trans TransSpec TransFacts PolyProofs InvProofs InvMain EvProofs ArithProofs
  Dnf DnfSpec DnfProofs DnfUnion PropDnf Logs Spe SpeSpec SpeFacts SpeRect LeafProofs LeafEvents LeafCond SpeCons LeafGiven MemoProofs
  LogprobProofs TotalSpec TotalSets TotalSolve TotalProofs SolveSpec InvTotal AskSpec NarrowTotal.
Import ListNotations.
Local Open Scope R_scope.

(** ** Definitions put into each other *)
Section Put.
  Context {N : numsys} (io : iterorder N) (po : polyoracle N) (fuel : nat).
  Notation tr := (tr N).
  Notation pset := (pset N).
  Fixpoint unary (t : tr) : Prop :=
    match t with
    | TId _ => True
    | TRadical s _ | TExp s _ | TLog s _ | TAbs s | TRecip s | TPoly s _ => unary s
    | _ => False
    end.
  Lemma chain_unary : forall t k u, chain po k (put u t) -> unary t /\ exists q, chain po q u.
  Proof.
    induction t; intros q u C; cbn [put chain unary] in *; try contradiction; eauto.
    - destruct C as (_ & _ & _ & C). eauto.
    - destruct C as (_ & _ & C). eauto.
    - destruct C as (_ & C). eauto.
    - destruct C as (_ & C). eauto.
    - destruct coeffs as [|c0 [|c1 [|c2 [|]]]]; try contradiction; [destruct C as (_ & C)|destruct C as (_ & _ & C)]; eauto.
  Qed.
  Lemma put_self : forall t z, unary t -> symbols t = [z] -> put (TId z) t = t.
  Proof. induction t; intros z Hu Sy; cbn [put unary symbols] in *; try contradiction; try (rewrite IHt by auto; reflexivity). now injection Sy as ->. Qed.
  Lemma put_put : forall t u v, unary t -> put u (put v t) = put (put u v) t.
  Proof. induction t; intros u v Hu; cbn [put unary] in *; try contradiction; try reflexivity; rewrite IHt by auto; reflexivity. Qed.
  Lemma put_unary : forall t u, unary t -> unary u -> unary (put u t).
  Proof. induction t; intros u Ht Hu; cbn [put unary] in *; try contradiction; auto. Qed.
  Lemma put_symbols : forall t u, unary t -> symbols (put u t) = symbols u.
  Proof. induction t; intros u Ht; cbn [put unary symbols] in *; try contradiction; auto. Qed.
  Lemma unary_symbols : forall t, unary t -> exists x, symbols t = [x].
  Proof. induction t; intros Ht; cbn [unary symbols] in *; try contradiction; eauto. Qed.
  Lemma subs_put : forall env z u, moved env z = true -> lookup z env = Some u -> forall t, unary t -> symbols t = [z] -> subs io po fuel env t = Ok (put u t).
  Proof.
    intros env z u Mv L. induction t; intros Ht Sy; cbn [unary] in Ht; try contradiction; cbn [symbols] in Sy; cbn [subs]; unfold expr_in_env; cbn [symbols]; rewrite ?Sy; cbn [existsb]; try (rewrite Mv; cbn [orb negb]; rewrite IHt by auto; reflexivity).
    injection Sy as ->. rewrite Mv. cbn [orb negb]. now rewrite L.
  Qed.

  (** an event about one function: a comparison or a disjunction of comparisons *)
  Definition frame (f : tr -> tr) (ps : list (ekind * pset)) : Prop :=
    (exists k v, ps = [(k, v)] /\ f = fun t => EBasic k t v) \/ (ps <> [] /\ f = fun t => EOr (map (fun p => EBasic (fst p) t (snd p)) ps)).
  Lemma frame_symbols : forall f ps t x, frame f ps -> symbols t = [x] -> symbols (f t) = [x].
  Proof.
    intros f ps t x [(k & v & -> & ->)|(Ne & ->)] Sy; [exact Sy|]. cbn [symbols]. rewrite map_map. unfold sunions.
    assert (I : forall z, In z (dedup String.eqb (List.concat (map (fun p => symbols (EBasic (fst p) t (snd p))) ps))) -> z = x).
    { intros z Hz. apply dedup_string_In, in_concat in Hz. destruct Hz as (m & Hm & Hz). apply in_map_iff in Hm. destruct Hm as (p & <- & _). cbn [symbols] in Hz. rewrite Sy in Hz. destruct Hz as [<-|[]]. reflexivity. }
    assert (Ix : In x (dedup String.eqb (List.concat (map (fun p => symbols (EBasic (fst p) t (snd p))) ps)))).
    { apply dedup_string_In. destruct ps as [|p ps]; [tauto|]. cbn [map List.concat symbols]. rewrite Sy. now left. }
    pose proof (dedup_string_NoDup (List.concat (map (fun p => symbols (EBasic (fst p) t (snd p))) ps))) as Nd. revert I Ix Nd. generalize (dedup String.eqb (List.concat (map (fun p => symbols (EBasic (fst p) t (snd p))) ps))). intros l I Ix Nd.
    destruct l as [|a [|b m]]; [destruct Ix|f_equal; apply I; now left|]. exfalso. inversion Nd as [|? ? Na _]; subst. apply Na. left. rewrite (I a), (I b); auto; cbn; auto.
  Qed.
  Lemma frame_subs : forall f ps env z u t, frame f ps -> moved env z = true -> lookup z env = Some u -> unary t -> symbols t = [z] -> subs io po fuel env (f t) = Ok (f (put u t)).
  Proof.
    intros f ps env z u t F Mv L Ht Sy. pose proof (frame_symbols f ps t z F Sy) as Sf. pose proof (subs_put env z u Mv L t Ht Sy) as E.
    assert (B : forall k v, subs io po fuel env (EBasic k t v) = Ok (EBasic k (put u t) v)).
    { intros k v. cbn [subs]. unfold expr_in_env. cbn [symbols]. rewrite Sy. cbn [existsb]. rewrite Mv. cbn [orb negb]. now rewrite E. }
    destruct F as [(k & v & -> & ->)|(Ne & ->)]; [apply B|]. cbn [subs]. unfold expr_in_env. rewrite Sf. cbn [existsb]. rewrite Mv. cbn [orb negb].
    assert (M : mapM (subs io po fuel env) (map (fun p => EBasic (fst p) t (snd p)) ps) = Ok (map (fun p => EBasic (fst p) (put u t) (snd p)) ps)).
    { clear Ne Sf. induction ps as [|p ps IH]; [reflexivity|]. cbn [map mapM]. rewrite B. cbn [bind]. now rewrite IH. }
    rewrite M. cbn [bind]. unfold EventOr, compound_ok. replace (forallb is_event _) with true; [destruct ps; [tauto|reflexivity]|]. symmetry. apply forallb_forall. intros a Ha. apply in_map_iff in Ha. destruct Ha as (p & <- & _). reflexivity.
  Qed.
  Lemma substitute_put : forall X env, env_built X env -> forall z u, means env z u -> (exists k, chain po k u) -> In z (map fst env) ->
    forall f ps, frame f ps -> forall n t, unary t -> symbols t = [z] -> (index z (map fst env) < n)%nat -> substitute io po fuel n env (f t) = Ok (f (put u t)) /\ symbols u = [X].
  Proof.
    intros X env B z u Me. destruct (built_facts X env B) as (F1 & F2 & F3 & F4). induction Me as [x Mx|z t1 y u Mz Lz Sy Me IH]; intros (k & Ck) Iz f ps F n t Ht St Hn.
    - assert (Ei : expr_in_env (f t) env = false) by (unfold expr_in_env; rewrite (frame_symbols f ps t x F St); cbn [existsb]; now rewrite Mx).
      split; [|apply lookup_in in Iz; destruct Iz as (u & L); destruct (F3 x u L) as [->|K]; [reflexivity|congruence]]. destruct n; cbn [substitute]; rewrite Ei; now rewrite put_self.
    - destruct (chain_unary t1 k u Ck) as (U1 & Cu). destruct (F4 z t1 Lz Mz y) as (Iy & Ly); [rewrite Sy; now left|]. destruct n as [|n]; [lia|]. cbn [substitute]. unfold expr_in_env at 1. rewrite (frame_symbols f ps t z F St). cbn [existsb]. rewrite Mz. cbn [orb].
      rewrite (frame_subs f ps env z t1 t F Mz Lz Ht St). cbn [bind]. destruct (IH Cu Iy f ps F n (put t1 t)) as (E & Su); [now apply put_unary|now rewrite put_symbols|lia|]. rewrite E. rewrite put_put by auto. split; [reflexivity|]. now rewrite put_symbols.
  Qed.
  Lemma solve_frame : forall f ps u, (2 <= fuel)%nat -> frame f ps -> (exists x, symbols u = [x]) -> Forall (fun p => fst p <> KNom /\ exists q, chain po q u /\ fit q (snd p)) ps ->
    exists r, solve io po fuel (f u) = Ok r /\ wf r /\ real_set r.
  Proof.
    intros f ps u Hf F (x & Sx) Fp. pose proof (frame_symbols f ps u x F Sx) as Sf. unfold solve.
    assert (One : forall p, fst p <> KNom /\ (exists q, chain po q u /\ fit q (snd p)) -> exists r, invert io po fuel (EBasic (fst p) u (snd p)) (PB (BReal [bit true])) = Ok r /\ wf r /\ real_set r).
    { intros (k, v) (Nk & q & Cq & Fq). cbn [fst snd] in *. rewrite invert_basic by (auto; lia). now apply (invert_total io po fuel u q). }
    destruct F as [(k & v & -> & ->)|(Ne & ->)].
    - inversion Fp as [|? ? Hp _]; subst. destruct (One (k, v) Hp) as (r & E & Wr). cbn [fst snd] in E. destruct Hp as (_ & q & Cq & Fq). cbn [snd] in Fq.
      assert (Dd : (exists y, u = TId y) \/ id_values (EBasic k u v) = None) by (destruct u; eauto). destruct Dd as [(y & ->)|Dd]; [exists v; split; [reflexivity|now apply (fit_wf q)]|].
      rewrite Dd. rewrite Sf. cbn [List.length Nat.ltb Nat.leb]. eauto.
    - cbn [id_values]. rewrite Sf. cbn [List.length Nat.ltb Nat.leb]. cbn [invert range]. rewrite dispatch_bits by lia.
      assert (M : exists xs, mapM (fun e => invert io po fuel e (PB (BReal [bit true]))) (map (fun p => EBasic (fst p) u (snd p)) ps) = Ok xs /\ Forall (fun r => wf r /\ real_set r) xs /\ List.length xs = List.length ps).
      { clear Ne Sf. induction Fp as [|p ps Hp Fp IH]; [exists []; cbn; auto|]. destruct (One p Hp) as (r & E & W & R). destruct IH as (xs & Ex & Fx & L). exists (r :: xs). cbn [map mapM]. rewrite E. cbn [bind]. rewrite Ex. cbn. auto. }
      destruct M as (xs & -> & Fx & Lx). cbn [bind]. apply make_union_total; auto. intros ->. destruct ps; [auto|discriminate].
  Qed.
End Put.

Section Leaf.
  Context {N : numsys} {S : logsys} {D : distsys N S} (io : iterorder N) (po : polyoracle N) (fuel : nat).
  Context (dlaw : dist D -> (fval -> R) -> R) (nominal : string -> bool) (cuts points : string -> R -> Prop) (asked : string -> Prop).
  Notation spe := (spe D).
  Notation tr := (tr N).
  Notation wf_leaf := (wf_leaf dlaw).
  Notation cmp := (cmp (N:=N) nominal cuts points).
  Notation flat := (flat (N:=N) nominal cuts points).
  Notation cclause := (cclause (N:=N) nominal cuts points).
  Notation prepared := (prepared (D:=D) po nominal cuts points asked).
  Definition ask (s : spe) (x : string) : Prop := vars s x /\ asked x.
  Definition qfactor (s : spe) (f : factor (N:=N)) : Prop :=
    f <> [] /\ Forall (fun c => cclause c /\ NoDup (map fst c) /\ forall p, In p c -> ask s (fst p)) f.
  Lemma qfactor_good : forall s f, qfactor s f -> good_factor (N:=N) nominal f.
  Proof.
    intros s f (_ & F). unfold good_factor. eapply Forall_impl; [|exact F]. intros c ((_ & Fc) & Nd & _). split; auto.
    eapply Forall_impl; [|exact Fc]. intros p Cp. pose proof Cp as (G & k & v & E & K). split; auto. rewrite E. cbn [lits]. constructor; auto. exists k, v. split; auto.
    intros ->. unfold fits in K. destruct (nominal (fst p)); auto. tauto.
  Qed.
  Lemma flat_frame : forall z e, flat z e -> exists f ps, frame f ps /\ e = f (TId z) /\ Forall (fun p => cmp z (EBasic (fst p) (TId z) (snd p))) ps.
  Proof.
    intros z e [C|(l & -> & Ne & F)].
    - pose proof C as (_ & k & v & -> & _). exists (fun t => EBasic k t v), [(k, v)]. split; [left; eauto|]. split; [reflexivity|]. auto.
    - assert (exists ps, l = map (fun p => EBasic (fst p) (TId z) (snd p)) ps /\ Forall (fun p => cmp z (EBasic (fst p) (TId z) (snd p))) ps) as (ps & -> & Fp).
      { clear Ne. induction F as [|a l Ca F IH]; [exists []; auto|]. destruct IH as (ps & -> & Fp). pose proof Ca as (_ & k & v & -> & _). exists ((k, v) :: ps). auto. }
      exists (fun t => EOr (map (fun p => EBasic (fst p) t (snd p)) ps)), ps. split; [right; split; auto; intros ->; now apply Ne|]. auto.
  Qed.
  Lemma cmp_fit : forall env z t p, nominal z = false -> through po cuts points env z t -> cmp z (EBasic (fst p) (TId z) (snd p)) -> fst p <> KNom /\ exists q, chain po q t /\ InvTotal.fit q (snd p) /\ q <> Many.
  Proof.
    intros env z t (k, v) En (_ & C1 & Cf) C. cbn [fst snd] in *. destruct (cmp_basic nominal cuts points z k _ v C) as (_ & G & F).
    destruct (fits_inffree nominal cuts points z k v G F En) as (R & I). unfold fits in F. rewrite En in F. destruct F as (Nk & _ & _ & He). split; auto. pose proof (gev_wf _ _ _ G) as (_ & W & K & _).
    destruct v as [|[ns b|vs|i]|us]; [exists One; split; [auto|split; [now left|discriminate]]|destruct R| |exists One; split; [auto|split; [right; left; eauto|discriminate]]|exfalso; now apply gev_not_union in G].
    destruct Cf as [Cf|Cf]; [exists Few; split; auto; split; [right; right; eauto|discriminate]|]. exists One. split; auto. split; [|discriminate]. right. right.
    assert (Fin : forall y, In y vs -> exists a, y = Fin a /\ named cuts points z (toR a)).
    { intros y Hy. destruct (I (eR y)) as (r & Er); [cbn; eauto|]. destruct y as [|a|]; try discriminate Er. exists a. split; auto. destruct He as (_ & He). apply (He vs (Fin a) (toR a)); [now left|auto|reflexivity]. }
    destruct W as (Wu & Nv). destruct vs as [|y vs]; [tauto|]. destruct (Fin y (or_introl eq_refl)) as (a & -> & Na). destruct vs as [|y' vs]; [eauto|]. exfalso. destruct (Fin y' ltac:(right; now left)) as (b & -> & Nb).
    specialize (Cf _ _ Na Nb). inversion Wu as [|? ? K1 _]; subst. apply K1. left. cbn [eR]. now rewrite Cf.
  Qed.
  Lemma derived_total : forall s z e t, (2 <= fuel)%nat -> wf_leaf s -> nominal z = false -> In z (map fst (snd (leaf_env s))) -> through po cuts points (snd (leaf_env s)) z t ->
    match s with RealLeaf _ _ _ supp _ _ => iv_lo supp = true /\ iv_ro supp = true \/ is_basic e = true /\ narrow t | AtomicLeaf _ _ _ => True | _ => False end ->
    flat z e -> exists p, leaf_logprob io po fuel s e = Ok p.
  Proof.
    intros s z e t Hf W En Iz Th Sh F. destruct (flat_frame z e F) as (f & ps & Fr & -> & Fp). pose proof (leaf_built dlaw s W) as B. pose proof (proj1 Th) as Me.
    destruct (substitute_put io po fuel _ _ B z t Me (ex_intro (fun k => chain po k t) _ (proj1 (proj2 Th))) Iz f ps Fr (List.length (snd (leaf_env s))) (TId z) Logic.I eq_refl) as (Es & St); [rewrite <- (map_length fst); now apply index_lt|].
    unfold leaf_logprob. fold (var_of s). unfold leaf_event. rewrite Es. cbn [put bind]. pose proof (frame_symbols f ps (TId z) z Fr eq_refl) as S1. pose proof (frame_symbols f ps t _ Fr St) as S2. rewrite S1, S2. cbn [forallb].
    rewrite (proj2 (inb_string _ _) Iz). cbn [andb passert bind]. unfold same_symbols, set_eqb, inb. cbn [forallb existsb]. rewrite String.eqb_refl. cbn [orb andb passert bind].
    destruct (solve_frame io po fuel f ps t Hf Fr (ex_intro _ _ St)) as (v & Ev & Wv & Rv).
    { eapply Forall_impl; [|exact Fp]. intros p Cp. destruct (cmp_fit (snd (leaf_env s)) z t p En Th Cp) as (A1 & q & A2 & A3 & _). eauto. }
    rewrite Ev. cbn [bind].
    assert (O : TotalSpec.open_leaves (fun _ => false) (fun _ _ => True) false s) by (destruct s; try contradiction; cbn [TotalSpec.open_leaves]; split; auto; discriminate).
    apply (solved_total io dlaw (fun _ => false) (fun _ _ => True) (fun _ _ => True) s v W O Wv); [split; auto; split; [intros i _ r _; exact Logic.I|intros; now left]|].
    assert (Nr : is_basic (f (TId z)) = true -> narrow t -> not_union v).
    { intros Be Nt. destruct Fr as [(k & u & -> & ->)|(_ & ->)]; [|discriminate]. inversion Fp as [|? ? Cp _]; subst. destruct (cmp_fit _ z t _ En Th Cp) as (Nk & q' & Cq' & Fq' & Nq'). cbn [fst snd] in *. unfold solve in Ev.
      assert (Dd : (exists y, t = TId y) \/ id_values (EBasic k t u) = None) by (destruct t; eauto). destruct Dd as [(y & ->)|Dd].
      - cbn [id_values] in Ev. injection Ev as <-. destruct (basic_of q' u Nq' Fq') as [->|(c & ->)]; exact Logic.I.
      - rewrite Dd, S2 in Ev. cbn [List.length Nat.ltb Nat.leb] in Ev. rewrite invert_basic in Ev by (auto; lia). destruct (narrow_basic io po fuel t q' u v Nt Cq' Nq' Fq' Ev) as [->|(c & ->)]; exact Logic.I. }
    destruct s; try contradiction.
    - destruct Sh as [Sh|(Be & Nt)]; [right; cbn [TotalSpec.open_leaves]; split; auto; intros _; split; left; apply Sh|left; auto].
    - right. cbn [TotalSpec.open_leaves]. auto.
  Qed.
  Lemma flat_total : forall s many z e, (2 <= fuel)%nat -> wf_leaf s -> prepared many s -> ask s z -> flat z e -> (many = false -> is_basic e = true) -> exists p, leaf_logprob io po fuel s e = Ok p.
  Proof.
    intros s many z e Hf W P (Vz & Az) F Hb. pose proof (leaf_built dlaw s W) as B.
    assert (Own : z = var_of s -> TotalSpec.open_leaves nominal cuts false s -> (many = true -> TotalSpec.open_leaves nominal cuts true s) -> exists p, leaf_logprob io po fuel s e = Ok p).
    { intros -> O1 O2. apply (leaf_total io po fuel dlaw nominal cuts points); auto; [lia|]. destruct many; auto. }
    destruct s as [disc x d supp cond env|x a env|x ws|l|l]; try contradiction; cbn [AskSpec.prepared vars leaf_env fst snd] in *.
    - destruct P as (_ & P). destruct (P z Az Vz) as (En & [(-> & Cs)|(t & Th & Os)]).
      + apply Own; [reflexivity| |]; cbn [TotalSpec.open_leaves]; intros; split; auto. discriminate.
      + apply (derived_total _ z e t); auto. destruct Os as [Os|(Em & Nt)]; auto.
    - destruct P as (Na & _ & P). destruct (P z Az Vz) as [->|(t & Th)].
      + apply Own; [reflexivity| |]; cbn [TotalSpec.open_leaves]; intros; split; auto.
      + apply (derived_total _ z e t); auto.
    - subst z. apply Own; [reflexivity| |]; cbn [TotalSpec.open_leaves]; auto.
  Qed.
  Lemma ask_lone : forall s many y z, wf_leaf s -> prepared many s -> ask s y -> ask s z -> y = z.
  Proof.
    intros [disc x d supp cond env|x a env|x ws|l|l] many y z W P (Vy & Ay) (Vz & Az); try contradiction; cbn [AskSpec.prepared vars] in *; [destruct P as (L & _); now apply L|destruct P as (_ & L & _); now apply L|congruence].
  Qed.
  Lemma leaf_qfactor_total : forall s many f, (2 <= fuel)%nat -> wf_leaf s -> prepared many s -> qfactor s f -> (many = false -> List.length f = 1%nat) ->
    exists p, (do e <- event_factor_to_event io f; leaf_logprob io po fuel s e) = Ok p.
  Proof.
    intros s many f Hf W P (Ne & F) Ho. unfold event_factor_to_event.
    assert (exists z, ask s z) as (z & Az).
    { destruct f as [|c f]; [tauto|]. inversion F as [|? ? ((Nc & _) & _ & V) _]; subst. destruct c as [|p c]; [tauto|]. exists (fst p). apply V. now left. }
    assert (Vx : forall x, ask s x -> x = z) by (intros x Hx; now apply (ask_lone s many)).
    assert (exists ls, mapM (fun c : clause => reduceM (ev_and io) (map snd c)) f = Ok ls /\ Forall (cmp z) ls /\ List.length ls = List.length f) as (ls & E & Fl & L).
    { clear Ne Ho. induction F as [|c f ((Nc & Fc) & Nd & Vc) F IH]; [exists []; split; [reflexivity|split; [constructor|reflexivity]]|]. destruct IH as (ls & E & Fl & L).
      destruct c as [|(x, a) [|(y, b) c]]; [tauto| |].
      - inversion Fc as [|? ? Ca _]; subst. cbn [fst snd] in Ca. exists (a :: ls). cbn [mapM map snd reduceM foldM bind]. rewrite E. cbn [bind List.length]. split; [reflexivity|]. split; [|auto]. constructor; auto.
        rewrite <- (Vx x); auto. apply (Vc (x, a)). now left.
      - exfalso. cbn [map fst] in Nd. inversion Nd as [|? ? Nx _]; subst. apply Nx. left. rewrite (Vx x) by (apply (Vc (x, a)); now left). apply Vx. apply (Vc (y, b)). right. now left. }
    rewrite E. cbn [bind]. destruct (reduce_flat io nominal cuts points z ls) as (e & Ee & Fe & Be); auto. { intros ->. destruct f; [tauto|discriminate]. }
    rewrite Ee. cbn [bind]. apply (flat_total s many z); auto. intros Em. apply Be. rewrite L. auto.
  Qed.
End Leaf.

(** ** Sums and products *)
Section Ask.
  Context {N : numsys} {S : logsys} {D : distsys N S} (io : iterorder N) (po : polyoracle N) (fuel : nat).
  Context (dlaw : dist D -> (fval -> R) -> R) (ident : spe D -> nat) (nominal : string -> bool) (cuts points : string -> R -> Prop) (asked : string -> Prop).
  Notation spe := (spe D).
  Notation tr := (tr N).
  Notation den := (den dlaw).
  Notation wf_spe := (wf_spe dlaw).
  Notation cmp := (cmp (N:=N) nominal cuts points).
  Notation flat := (flat (N:=N) nominal cuts points).
  Notation cclause := (cclause (N:=N) nominal cuts points).
  Notation clause := (clause (N:=N)).
  Notation factor := (factor (N:=N)).
  Notation afactor := (qfactor nominal cuts points asked).
  Notation ask := (ask (D:=D) asked).
  Notation good_clause := (good_clause (N:=N) nominal).
  Notation good_factor := (good_factor (N:=N) nominal).
  Notation prepared := (prepared (D:=D) po nominal cuts points asked).
  Context (Hf : (2 <= fuel)%nat).
  Context (U : spe -> Prop) (Uc : closed ident U).
  Context (C1 : list ((nat * factor) * spe) -> Prop) (C2 : list ((nat * assignment (N:=N)) * (nat * lg S)) -> Prop) (C3 : list ((nat * assignment (N:=N)) * spe) -> Prop).
  Notation valid := (valid dlaw ident U C1 C2 C3).
  Notation safe := (safe valid).
  Notation sat := (sat valid).

  Lemma prepared_atoms : forall s b, prepared b s -> atoms_ok nominal s.
  Proof.
    induction s using spe_ind'; intros b O; cbn [AskSpec.prepared atoms_ok] in *; auto.
    - apply O.
    - apply All_intro. intros c Hc. apply (H c Hc b). exact (SpeFacts.All_In _ _ _ _ O Hc).
    - apply All_intro. intros c Hc. apply (H c Hc false). exact (SpeFacts.All_In _ _ _ _ O Hc).
  Qed.
  Section Prod.
    Context (l : list spe) (Wl : wf_spe (ProductSPE l)).
    Notation kids := (kids io po fuel ident l).
    Context (Kids : forall c, In c l -> forall f, good_factor f -> sat (logprob_mem io po fuel ident c f) (prob_ok dlaw c f)).
    Context (Safe : forall c, In c l -> forall f, afactor c f -> List.length f = 1%nat -> safe (logprob_mem io po fuel ident c f)).

    Lemma child_total : forall (m : list spe) x i c, In c m -> vars c x -> exists j, child_of x i (map (get_symbols (D:=D)) m) = Some j.
    Proof.
      induction m as [|d m IH]; intros x i c Hc V; [destruct Hc|]. cbn [map child_of]. destruct (child_of x (1 + i) (map get_symbols m)) eqn:E; eauto. destruct Hc as [->|Hc].
      - replace (inb String.eqb x (get_symbols c)) with true; eauto. symmetry. apply inb_string. now apply (get_symbols_vars dlaw).
      - destruct (IH x (1 + i)%nat c Hc V) as (j & Ej). congruence.
    Qed.
    Lemma lookup_total : forall x, ask (ProductSPE l) x -> exists i, lookup_child kids x = Ok i.
    Proof.
      intros x (V & _). unfold lookup_child, LogprobProofs.kids. rewrite map_map. cbn [fst]. cbn [vars] in V.
      assert (exists c, In c l /\ vars c x) as (c & Hc & Vc). { clear -V. induction l as [|d m IH]; [destruct V|]. destruct V as [V|V]; [exists d; split; auto; now left|]. destruct (IH V) as (c & Hc & Vc). exists c. split; auto. now right. }
      destruct (child_total l x 0 c Hc Vc) as (j & Ej). exists j. destruct (child_of x 0 _) eqn:E0; congruence.
    Qed.
    Definition fit (p : string * tr) : Prop := cmp (fst p) (snd p) /\ ask (ProductSPE l) (fst p).
    Lemma conj_from_total : forall key items c0, Forall fit items -> Forall (fun p => cmp (fst p) (snd p) /\ lookup_child kids (fst p) = Ok key /\ ask (ProductSPE l) (fst p)) c0 ->
      exists c, foldM (fun c p => do i <- lookup_child kids (fst p); if Nat.eqb i key then add_key io c (fst p) (snd p) else Ok c) items c0 = Ok c /\ Forall (fun p => cmp (fst p) (snd p) /\ lookup_child kids (fst p) = Ok key /\ ask (ProductSPE l) (fst p)) c.
    Proof.
      intros key. induction items as [|p items IH]; intros c0 F F0; cbn [foldM]; eauto. inversion F as [|? ? (Cp & Vp) F']; subst. destruct (lookup_total _ Vp) as (i & Ei). rewrite Ei. cbn [bind]. destruct (Nat.eqb_spec i key) as [->|Ni].
      - assert (Fc : Forall (fun p => cmp (fst p) (snd p)) c0) by (eapply Forall_impl; [|exact F0]; intros a (Ha & _); exact Ha).
        destruct (add_key_total io nominal cuts points c0 (fst p) (snd p) Fc Cp) as (c & Ec). rewrite Ec. cbn [bind]. apply IH; auto.
        clear -Ec F0 Cp Ei Vp. revert c Ec. induction F0 as [|(k, b) c0 (Cb & Lb) F0 IH]; intros c Ec; cbn [add_key] in Ec.
        + injection Ec as <-. auto.
        + cbn [fst snd] in *. destruct (String.eqb_spec (fst p) k) as [<-|Nk]; inv_bind Ec; injection Ec as <-; constructor; auto. cbn [fst snd]. split; auto. now apply (and_cmp io nominal cuts points _ b (snd p)).
      - cbn [bind]. apply IH; auto.
    Qed.
    Definition wide (J : list clause) : Prop := Forall (fun c => good_clause c /\ Forall fit c) J.
    Lemma wide_items : forall J, wide J -> Forall fit (conj_items J).
    Proof. intros J W. apply Forall_concat. eapply Forall_impl; [|exact W]. intros c (_ & F). exact F. Qed.
    Lemma wide_good : forall J, wide J -> Forall good_clause J.
    Proof. intros J W. eapply Forall_impl; [|exact W]. intros c (G & _). exact G. Qed.
    Lemma key_safe : forall J key, wide J -> (exists p, In p (conj_items J) /\ lookup_child kids (fst p) = Ok key) -> safe (logprob_conjunction_key io kids J key).
    Proof.
      intros J key W Ex. unfold logprob_conjunction_key. destruct (conj_from_total key (conj_items J) [] (wide_items J W) ltac:(constructor)) as (c & Ec & Fc).
      apply safe_bind with (P := fun c' => c' = c).
      - apply sat_lift. intros c' E. unfold conjunction_clause in E. congruence.
      - apply safe_lift. exists c. exact Ec.
      - intros c' ->. destruct c as [|p0 c0] eqn:E; [apply safe_ret|]. rewrite <- E in *.
        destruct (conj_clause_from io po fuel ident nominal l _ key [] c (items_good nominal J (wide_good J W)) (good_nil nominal) Ec) as (Gc & _).
        destruct Ex as (p & Hp & El). destruct (lookup_ok io po fuel dlaw ident l _ _ El) as (ch & Ech & _).
        replace (nth_error kids key) with (Some (get_symbols ch, logprob_mem io po fuel ident ch)) by (unfold LogprobProofs.kids; now rewrite nth_error_map, Ech). cbn [snd].
        apply Safe; auto; [eapply nth_error_In; eauto|]. split; [discriminate|]. constructor; [|constructor]. split; [split; [rewrite E; discriminate|eapply Forall_impl; [|exact Fc]; intros a (Ha & _); exact Ha]|]. split; [apply Gc|].
        intros q Hq. rewrite Forall_forall in Fc. destruct (Fc q Hq) as (_ & Lq & Oq). destruct (lookup_ok io po fuel dlaw ident l _ _ Lq) as (c' & Ec' & Vc). assert (c' = ch) as -> by congruence. clear Ec'.
        split; [exact Vc|apply Oq].
    Qed.
    Lemma conjunction_safe : forall J, wide J -> safe (logprob_conjunction io kids J).
    Proof.
      intros J W. unfold logprob_conjunction. pose proof (wide_items J W) as Fi.
      apply safe_bind with (P := fun keys => mapM (fun p => lookup_child kids (fst p)) (conj_items J) = Ok keys); [apply sat_lift; auto| |].
      - apply safe_lift. induction Fi as [|p items (_ & V) Fi IH]; [exists []; reflexivity|]. cbn [mapM]. destruct (lookup_total _ V) as (i & ->). destruct IH as (ks & ->). cbn [bind]. eauto.
      - intros keys Hk. apply mapM_Forall2 in Hk.
        assert (K : forall k, In k (dedup Nat.eqb keys) -> exists p, In p (conj_items J) /\ lookup_child kids (fst p) = Ok k).
        { intros k Hin. apply (proj1 (dedup_nat_In _ _)) in Hin. destruct (Forall2_in_r _ _ _ _ _ _ Hk Hin) as (p & Hp & El). exists p. auto. }
        apply safe_bind with (P := fun _ => True).
        + eapply sat_weaken; [apply sat_mmap|auto]. intros k Hin. apply (share_key io po fuel dlaw ident nominal U C1 C2 C3 l); auto. now apply wide_good.
        + apply safe_mmap with (P := fun k p => exists c, nth_error l k = Some c /\ forall w, toP p = den c (ind (share io po fuel ident l (conj_items J) k)) w). intros k Hin. split; [|apply key_safe; auto].
          apply (share_key io po fuel dlaw ident nominal U C1 C2 C3 l); auto. now apply wide_good.
        + intros ps _. apply safe_ret.
    Qed.

    Context (f : factor) (Af : afactor (ProductSPE l) f).
    Notation n := (List.length f).
    Lemma subset_wide : forall sub, wide (map (fun j => nth j f []) sub).
    Proof.
      intros sub. unfold wide. rewrite Forall_map. apply Forall_forall. intros j _. pose proof (qfactor_good nominal cuts points asked _ f Af) as G. unfold MemoProofs.good_factor in G. rewrite Forall_forall in G.
      destruct (nth_in_or_default j f []) as [H|E]; [|rewrite E; split; [apply good_nil|constructor]]. split; [auto|]. destruct Af as (_ & F). rewrite Forall_forall in F. destruct (F _ H) as ((_ & Fc) & _ & V).
      apply Forall_forall. intros p Hp. rewrite Forall_forall in Fc. split; auto.
    Qed.
    Lemma conj_sat : forall sub, sat (logprob_conjunction io kids (map (fun j => nth j f []) sub)) (fun _ => True).
    Proof. intros sub. eapply sat_weaken; [apply (conjunction_ok io po fuel dlaw ident nominal U C1 C2 C3 l Wl Kids), wide_good, subset_wide|auto]. Qed.
    Lemma loop_safe : forall k stack avoid pos neg, Forall (fun p => (snd p < n)%nat) stack -> (load n stack <= k)%nat -> safe (ie_loop io kids f k stack avoid pos neg).
    Proof.
      induction k as [|k IH]; intros [|(sub, i) stack] avoid pos neg Fs L; cbn [ie_loop]; try apply safe_ret.
      - exfalso. unfold load in L. cbn [map list_sum fold_right snd] in L. pose proof (Nat.pow_nonzero 2 (n - (1 + i)) ltac:(lia)). lia.
      - inversion Fs as [|? ? Hi Fs']; subst. cbn [snd] in Hi. unfold load in L. cbn [map list_sum fold_right snd] in L. fold (list_sum (map (fun p : list nat * nat => 2 ^ (n - (1 + snd p)))%nat stack)) in L. fold (load n stack) in L.
        pose proof (load_push n sub i Hi) as Lp. destruct (existsb _ avoid).
        + apply IH; auto. lia.
        + apply safe_bind with (P := fun _ => True); [apply conj_sat|apply conjunction_safe, subset_wide|]. intros p _.
          assert (Fs2 : Forall (fun p => (snd p < n)%nat) (stack ++ map (fun i0 => (sub ++ [i0], i0)) (seq (1 + i) (n - (1 + i))))).
          { apply Forall_app. split; auto. rewrite Forall_map. apply Forall_forall. intros j Hj. apply in_seq in Hj. cbn [snd]. lia. }
          assert (L2 : (load n (stack ++ map (fun i0 => (sub ++ [i0], i0)) (seq (1 + i) (n - (1 + i)))) <= k)%nat).
          { unfold load. rewrite map_app, list_sum_app. fold (load n stack). fold (load n (map (fun i0 => (sub ++ [i0], i0)) (seq (1 + i) (n - (1 + i))))). lia. }
          destruct (Nat.odd (List.length sub)); now apply IH.
    Qed.
    Lemma loop_pos : forall k stack avoid pos neg,
      (pos <> [] \/ (avoid = [] /\ match stack with p :: _ => Nat.odd (List.length (fst p)) = true | [] => False end)) ->
      sat (ie_loop io kids f k stack avoid pos neg) (fun pn => fst pn <> []).
    Proof.
      assert (App : forall (a : list (lg S)) p, a ++ [p] <> []) by (intros a p E; apply app_eq_nil in E; destruct E; discriminate).
      induction k as [|k IH]; intros [|(sub, i) stack] avoid pos neg H; cbn [ie_loop]; try (apply sat_ret; cbn [fst]; tauto).
      - apply sat_lift. intros a E. discriminate E.
      - cbn [fst] in H. destruct (existsb _ avoid) eqn:Ea.
        + apply IH. left. destruct H as [H|(-> & _)]; [auto|discriminate Ea].
        + apply sat_bind with (P := fun _ => True); [apply conj_sat|]. intros p _. destruct (Nat.odd (List.length sub)) eqn:Eo; apply IH; left; auto.
          destruct H as [H|(_ & H)]; [auto|congruence].
    Qed.
    Lemma product_safe : safe (product_logprob io kids f).
    Proof.
      unfold product_logprob. pose proof (qfactor_good nominal cuts points asked _ f Af) as Gf. pose proof Af as (Nf & _).
      assert (Fs : Forall (fun p => (snd p < n)%nat) (map (fun i => ([i], i)) (seq 0 n))) by (rewrite Forall_map; apply Forall_forall; intros j Hj; apply in_seq in Hj; cbn [snd]; lia).
      apply safe_bind with (P := fun pn => (forall w, sumR (map toP (fst pn)) - sumR (map toP (snd pn)) = den (ProductSPE l) (ind (factor_holds f)) w) /\ fst pn <> []).
      - apply sat_and; [|apply loop_pos; right; split; auto; destruct f; [tauto|reflexivity]].
        eapply sat_weaken; [apply (ie_loop_ok io po fuel dlaw ident nominal U C1 C2 C3 l Wl Kids f Gf); [exact Fs|constructor]|].
        intros pn H w. rewrite (H w), (parts_all (den_kernel dlaw _ Wl w)). cbn [map sumR fold_right]. rewrite Rminus_0_r, Rplus_0_l. f_equal. apply ind_iff. intros a. unfold factor_holds, ev_of. split.
        + intros (j & Hj & K). exists (nth j f []). split; auto. now apply nth_In.
        + intros (c & Hc & K). destruct (In_nth f c [] Hc) as (j & Hj & <-). eauto.
      - apply loop_safe; auto. apply load_start.
      - intros (pos, neg) (H & Np). cbn [fst snd] in *. assert (P01 : forall w, 0 <= den (ProductSPE l) (ind (factor_holds f)) w) by (intros w; apply (law_01 (den_kernel dlaw _ Wl w))).
        destruct (lse_ok S pos Np) as (p & Ep & Hp). rewrite Ep. apply safe_bind with (P := fun p' => p' = p); [apply sat_lift; congruence|apply safe_lift; eauto|]. intros p' ->. destruct (lisninf p); cbn [orb]; [apply safe_ret|].
        destruct neg as [|q0 neg0] eqn:En; cbn [is_nil]; [apply safe_ret|]. rewrite <- En in *. destruct (lse_ok S neg) as (q & Eq & Hq); [rewrite En; discriminate|]. rewrite Eq. apply safe_bind with (P := fun q' => q' = q); [apply sat_lift; congruence|apply safe_lift; eauto|].
        intros q' ->. apply safe_lift. destruct (ldiff_ok S p q) as (r & Er & _); eauto. specialize (H (fun _ => FNum 0)). specialize (P01 (fun _ => FNum 0)). lra.
    Qed.
  End Prod.

  Theorem ask_mem_safe : forall s, U s -> wf_spe s -> forall many, prepared many s -> forall f, afactor s f -> (many = false -> List.length f = 1%nat) -> safe (logprob_mem io po fuel ident s f).
  Proof.
    assert (Leaf : forall s many f, SpeSpec.wf_leaf dlaw s -> prepared many s -> afactor s f -> (many = false -> List.length f = 1%nat) -> exists p, (do e <- event_factor_to_event io f; leaf_logprob io po fuel s e) = Ok p).
    { intros s many f W O A L. now apply (leaf_qfactor_total io po fuel dlaw nominal cuts points asked s many). }
    induction s using spe_ind'; intros Us W many O f A L; cbn [logprob_mem]; apply memo_safe.
    - apply safe_lift. now apply (Leaf _ many).
    - apply safe_lift. now apply (Leaf _ many).
    - apply safe_lift. now apply (Leaf _ many).
    - assert (K : forall c, In c l -> sat (mbind (logprob_mem io po fuel ident (fst c) f) (fun p => mret (ladd p (snd c)))) (fun _ => True) /\ safe (mbind (logprob_mem io po fuel ident (fst c) f) (fun p => mret (ladd p (snd c))))).
      { intros c Hc. assert (Uc' : U (fst c)) by (eapply (proj1 Uc); eauto). assert (Wc : wf_spe (fst c)) by (eapply sum_wf; eauto). pose proof (SpeFacts.All_In _ _ _ _ O Hc) as Oc. cbv beta in Oc.
        assert (Sc : sat (logprob_mem io po fuel ident (fst c) f) (prob_ok dlaw (fst c) f)) by (apply logprob_mem_ok with (nominal := nominal); auto; [now apply (prepared_atoms _ many)|now apply (qfactor_good nominal cuts points asked (SumSPE l))]).
        assert (Ac : afactor (fst c) f).
        { destruct A as (Nf & F). split; auto. eapply Forall_impl; [|exact F]. intros cl (C & Nd & V). split; auto. split; auto. intros p Hp. specialize (V p Hp). destruct V as (V & Aq). split; auto. now apply (sum_vars dlaw l c W Hc). }
        split.
        - apply sat_bind with (P := prob_ok dlaw (fst c) f); auto. intros p _. apply sat_ret. auto.
        - apply safe_bind with (P := prob_ok dlaw (fst c) f); auto; [now apply (H c Hc Uc' Wc many)|]. intros p _. apply safe_ret. }
      apply safe_bind with (P := fun ps => Forall2 (fun _ _ => True) l ps).
      + apply sat_mmap. intros c Hc. now apply K.
      + apply safe_mmap with (P := fun _ _ => True). intros c Hc. now apply K.
      + intros ps Fp. apply safe_lift. destruct (lse_ok S ps) as (r & Er & _); eauto. intros ->. inversion Fp; subst. destruct W as (_ & T & _). cbn in T. lra.
    - apply (product_safe l W); auto.
      + intros c Hc g Gg. apply logprob_mem_ok with (nominal := nominal); auto; [eapply (proj1 (proj2 Uc)); eauto|eapply prod_wf; eauto|]. apply (prepared_atoms c false). exact (SpeFacts.All_In _ _ _ _ O Hc).
      + intros c Hc g Ag Lg. apply (H c Hc) with (many := false); auto; [eapply (proj1 (proj2 Uc)); eauto|eapply prod_wf; eauto|]. exact (SpeFacts.All_In _ _ _ _ O Hc).
  Qed.
End Ask.
