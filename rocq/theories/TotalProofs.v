(** Asking for the probability of direct comparisons always gets an answer. *)
From Coq Require Import List Bool String Reals Lra Lia ZArith QArith Qreals Permutation PeanoNat.
From Verif Require Import Base Num Sets SetSpec SetIv SetProofs SetOr SetOps SetAlg SetBuilt
  Poly Trans TransSpec TransFacts PolyProofs InvProofs InvMain EvProofs ArithProofs
  Dnf DnfSpec DnfProofs DnfUnion PropDnf Logs Spe SpeSpec SpeFacts SpeRect LeafProofs LeafEvents LeafCond SpeCons LeafGiven MemoProofs
  LogprobProofs TotalSpec TotalSets TotalSolve.
Import ListNotations.
Local Open Scope R_scope.

(** ** Computations with a memo that give a result *)
Section Safe.
  Context {N : numsys} {S : logsys} {D : distsys N S}.
  Notation M := (M (N:=N) (D:=D)).
  Context (V : memo (D:=D) -> Prop).
  Definition safe {A} (m : M A) : Prop := forall t, V t -> exists a, fst (m t) = Ok a.
  Lemma safe_ret : forall A (a : A), safe (mret a).
  Proof. intros A a t _. exists a. reflexivity. Qed.
  Lemma safe_lift : forall A (r : res A), (exists a, r = Ok a) -> safe (lift r).
  Proof. intros A r (a & ->) t _. exists a. reflexivity. Qed.
  Lemma safe_bind : forall A B (m : M A) (k : A -> M B) (P : A -> Prop), sat V m P -> safe m -> (forall a, P a -> safe (k a)) -> safe (mbind m k).
  Proof.
    intros A B m k P Hm Sm Hk t Ht. destruct (Hm t Ht) as (H1 & H2). destruct (Sm t Ht) as (a & Ea). unfold mbind. destruct (m t) as [r t']. cbn [fst snd] in *. subst r. apply (Hk a); auto.
  Qed.
  Lemma safe_mmap : forall A B (f : A -> M B) (P : A -> B -> Prop) l, (forall a, In a l -> sat V (f a) (P a) /\ safe (f a)) -> safe (mmap f l).
  Proof.
    induction l as [|a l IH]; intros H; cbn [mmap]; [apply safe_ret|]. destruct (H a ltac:(now left)) as (H1 & H2).
    apply safe_bind with (P := P a); auto. intros b _. apply safe_bind with (P := Forall2 P l).
    - apply sat_mmap. intros c Hc. apply H. now right.
    - apply IH. intros c Hc. apply H. now right.
    - intros bs _. apply safe_ret.
  Qed.
  Lemma sat_and : forall A (m : M A) (P Q : A -> Prop), sat V m P -> sat V m Q -> sat V m (fun a => P a /\ Q a).
  Proof. intros A m P Q H1 H2 t Ht. destruct (H1 t Ht) as (K1 & K2). destruct (H2 t Ht) as (_ & K3). auto. Qed.
End Safe.

(** ** Variables that are not derived *)
Section Own.
  Context {N : numsys} {S : logsys} {D : distsys N S} (dlaw : dist D -> (fval -> R) -> R).
  Notation spe := (spe D).
  Notation wf_spe := (wf_spe dlaw).
  Lemma any_In : forall A (P : A -> Prop) l, Any P l <-> exists a, In a l /\ P a.
  Proof.
    intros A P. induction l as [|a l IH]; cbn [Any]; [split; [tauto|intros (a & [] & _)]|]. rewrite IH. split.
    - intros [H|(b & Hb & H)]; [exists a; split; auto; now left|exists b; split; auto; now right].
    - intros (b & [<-|Hb] & H); eauto.
  Qed.
  Lemma own_vars : forall (s : spe) x, wf_spe s -> own s x -> vars s x.
  Proof.
    induction s as [disc y d supp cond env|y a env|y ws|l H|l H] using spe_ind'; intros x W O; cbn [own vars] in *.
    - subst. apply (built_facts x env). apply W.
    - subst. apply (built_facts x env). apply W.
    - exact O.
    - destruct l as [|c l]; [now apply (sum_nonempty dlaw) in W|]. apply (H c); [now left|apply (sum_wf dlaw _ W); now left|]. exact (SpeFacts.All_In _ _ _ c O (or_introl eq_refl)).
    - apply any_In. apply any_In in O. destruct O as (c & Hc & Oc). exists c. split; auto. apply H; auto. now apply (prod_wf dlaw l W).
  Qed.
  Lemma own_child : forall l c x, wf_spe (ProductSPE l) -> In c l -> vars c x -> own (ProductSPE l) x -> own c x.
  Proof.
    intros l c x W Hc V O. cbn [own] in O. apply any_In in O. destruct O as (d & Hd & Od). assert (Vd : vars d x) by (apply own_vars; auto; now apply (prod_wf dlaw l W)).
    destruct W as (_ & _ & Ap). destruct (ForallOrdPairs_In Ap c d Hc Hd) as [->|[K|K]]; auto; exfalso; eapply K; eauto.
  Qed.
End Own.

Section Leaves.
  Context {N : numsys} {S : logsys} {D : distsys N S} (io : iterorder N) (po : polyoracle N) (fuel : nat).
  Context (dlaw : dist D -> (fval -> R) -> R) (nominal : string -> bool) (cuts points : string -> R -> Prop).
  Notation spe := (spe D).
  Notation tr := (tr N).
  Notation wf_leaf := (wf_leaf dlaw).
  Notation cmp := (cmp (N:=N) nominal cuts points).
  Notation flat := (flat (N:=N) nominal cuts points).
  Notation cclause := (cclause (N:=N) nominal cuts points).
  Notation open_leaves := (open_leaves (D:=D) nominal cuts).

  Lemma built_self : forall x (env : tenv (N:=N)), env_built x env -> moved env x = false /\ In x (map fst env).
  Proof.
    intros x env B. destruct (built_facts x env B) as (I & Mv & _). auto.
  Qed.
  Lemma leaf_event_total : forall x (env : tenv (N:=N)) (e : tr), env_built x env -> symbols e = [x] -> leaf_event io po fuel x env e = Ok e.
  Proof.
    intros x env e B Sy. destruct (built_self x env B) as (L & I). unfold leaf_event.
    assert (Es : forall n, substitute io po fuel n env e = Ok e). { intros n. assert (Ei : expr_in_env e env = false) by (unfold expr_in_env; rewrite Sy; cbn [existsb]; now rewrite L). destruct n; cbn [substitute]; now rewrite Ei. }
    rewrite Es. cbn [bind]. rewrite Sy. cbn [forallb]. apply inb_string in I. rewrite I. cbn [andb passert bind].
    unfold same_symbols, set_eqb, inb. cbn [forallb existsb]. rewrite String.eqb_refl. reflexivity.
  Qed.
  Definition var_of (s : spe) : string := fst (leaf_env s).
  Lemma leaf_built : forall s, wf_leaf s -> env_built (var_of s) (snd (leaf_env s)).
  Proof. intros s W. apply (leaf_env_ok dlaw s W). Qed.
  Lemma contains_total : forall a (v : pset N), real_set v -> exists b, contains io (VNum a) v = Ok b.
  Proof.
    intros a [|b|u] R; cbn [contains]; eauto.
    - destruct b; cbn [bcontains]; eauto.
    - generalize (u_values io u). induction l as [|b l IH]; cbn [anyM]; eauto.
      assert (exists c, bcontains (VNum a) b = Ok c) as (c & ->) by (destruct b; cbn [bcontains]; eauto). cbn [bind]. destruct c; eauto.
  Qed.
  (** a set of values of the right sort *)
  Lemma solved_total : forall s (v : pset N), wf_leaf s -> open_leaves false s -> wf v -> (if nominal (var_of s) then v = PEmpty \/ nominal_set v else real_set v /\ ends (cuts (var_of s)) (points (var_of s)) v) ->
    (not_union v \/ open_leaves true s) -> exists p, leaf_solved_logprob io s v = Ok p.
  Proof.
    intros s v W O Wv Sv Ho. destruct s as [disc x d supp cond env|x a env|x ws|l|l]; try contradiction; unfold var_of in Sv; cbn [leaf_env fst] in Sv.
    - cbn [TotalSpec.open_leaves] in O, Ho. destruct O as (En & _). rewrite En in Sv.
      assert (exists r, pand io (PB (BInt supp)) v = Ok r) as (r & Hr).
      { destruct v as [|b|u]; [exists PEmpty; reflexivity| |].
        - destruct W as (W1 & _). destruct (and_bb_ok (BInt supp) b W1 Wv) as (r & Hr & _). exists r. exact Hr.
        - destruct Ho as [[]|(_ & Ho)]. destruct Sv as (Rv & Ev). apply (and_open_total io cuts points x); auto. apply W. }
      destruct W as (W1 & W2 & W3 & W4 & _).
      destruct (real_solved dlaw disc d supp cond W1 (disc_int _ _ _ _ _ _ _ W2) W3 W4 (disc_pos _ _ _ _ _ _ _ W2) io v r x env Wv Hr) as (_ & _ & _ & _ & q & Eq & _). eauto.
    - cbn [TotalSpec.open_leaves] in O. destruct O as (En & _). rewrite En in Sv. cbn [leaf_solved_logprob]. destruct (contains_total (Fin a) v (proj1 Sv)) as (b & ->). cbn [bind]. eauto.
    - cbn [TotalSpec.open_leaves] in O. rewrite O in Sv. cbn [leaf_solved_logprob]. destruct W as (Nd & P & T).
      assert (exists s0, FiniteNominal (N:=N) (map fst ws) None = Ok s0) as (s0 & Es).
      { unfold FiniteNominal. destruct ws as [|w ws]; [cbn in T; discriminate T|]. cbn [map is_nil negb orb passert bind]. eauto. }
      rewrite Es. cbn [bind]. assert (exists r, pand io s0 v = Ok r) as (r & Hr).
      { pose proof (FiniteNominal_wf _ _ _ Es) as Ws. destruct Sv as [-> |Sv]; [unfold FiniteNominal in Es; inv_bind Es; injection Es as <-; exists PEmpty; reflexivity|].
        destruct v as [|b|u]; try contradiction. unfold FiniteNominal in Es. inv_bind Es. injection Es as <-. destruct (and_bb_ok _ b Ws Wv) as (r' & Hr & _). exists r'. exact Hr. }
      rewrite Hr. cbn [bind]. destruct (nominal_values io _ _ _ _ Es Wv Hr) as (Wr & In1 & Vv & Ns & Vb).
      destruct (is_empty r) eqn:Er; [eauto|]. rewrite Ns.
      assert (Nr : r = PEmpty \/ nominal_set r) by (apply (and_nominal io s0 v); auto; unfold FiniteNominal in Es; inv_bind Es; injection Es as <-; right; exact Logic.I).
      destruct r as [|[vs b| |]|]; try discriminate Er; try (destruct Nr as [Nr|Nr]; [discriminate|destruct Nr]).
      destruct (Vb vs b eq_refl) as (_ & _ & _ & Inc). unfold nom_prob.
      destruct (mapM_ok _ _ (fun x0 => match lookup x0 ws with Some q => Ok q | None => Raise KeyError end) (fun _ _ => True) vs) as (ps & -> & _); [|cbn [bind]; eauto].
      intros k Hk. specialize (Inc k Hk). apply in_map_iff in Inc. destruct Inc as ((k', q) & E' & Hin). cbn [fst] in E'. subst k'.
      assert (exists q', lookup k ws = Some q') as (q' & ->); [|eauto]. clear -Hin. induction ws as [|(k0, q0) ws IH]; [destruct Hin|]. cbn [lookup]. destruct (String.eqb_spec k k0); eauto. destruct Hin as [E|Hin]; [congruence|auto].
  Qed.
  Lemma leaf_total : forall s e, (1 <= fuel)%nat -> wf_leaf s -> open_leaves false s -> flat (var_of s) e -> (is_basic e = true \/ open_leaves true s) -> exists p, leaf_logprob io po fuel s e = Ok p.
  Proof.
    intros s e Hf W O F Ho. unfold leaf_logprob. fold (var_of s). pose proof (flat_symbols nominal cuts points _ e F) as Sy.
    rewrite leaf_event_total by (auto; now apply leaf_built). cbn [bind]. destruct (solve_flat io po fuel nominal cuts points _ e Hf F) as (v & Ev & Wv & Sv). rewrite Ev. cbn [bind].
    apply solved_total; auto. destruct Ho as [Bo|]; auto. left. destruct F as [(G & k & u & -> & _)|(l & -> & _)]; [|discriminate]. cbn in Ev. injection Ev as <-. destruct u; simpl; auto. now apply gev_not_union in G.
  Qed.

  (** ** The event that a leaf is asked about *)
  Lemma or_flat : forall x a b, flat x a -> cmp x b -> exists c, ev_or io a b = Ok c /\ flat x c.
  Proof.
    intros x a b [Ca|(l & -> & Ne & F)] Cb.
    - destruct (or_cmp_total io nominal cuts points x a b Ca Cb) as (c & Hc & K). exists c. split; auto. destruct K as [K| ->]; [now left|]. right. exists [a; b]. split; auto. split; [discriminate|auto].
    - pose proof Cb as (Gb & k & v & -> & _). cbn [ev_or]. rewrite EventOr_total; [|destruct l; discriminate|].
      + eexists. split; [reflexivity|]. right. eexists. split; [reflexivity|]. split; [destruct l; discriminate|]. apply Forall_app. auto.
      + apply Forall_app. split; auto. eapply Forall_impl; [|exact F]. intros c (Gc & _). exact Gc.
  Qed.
  Lemma reduce_flat : forall x l, l <> [] -> Forall (cmp x) l -> exists c, reduceM (ev_or io) l = Ok c /\ flat x c /\ (List.length l = 1%nat -> is_basic c = true).
  Proof.
    intros x [|a l] Ne F; [tauto|]. inversion F as [|? ? Ca Fl]; subst. cbn [reduceM].
    assert (exists c, foldM (ev_or io) l a = Ok c /\ flat x c) as (c & E & Fc).
    { assert (Fa : flat x a) by (now left). clear Ca F Ne. revert a Fa. induction Fl as [|b l Cb Fl IH]; intros a Fa; cbn [foldM]; eauto. destruct (or_flat x a b Fa Cb) as (c & -> & Fc). cbn [bind]. auto. }
    exists c. split; auto. split; auto. intros L. destruct l; [|discriminate]. cbn [foldM] in E. injection E as <-. destruct Ca as (_ & k & v & -> & _). reflexivity.
  Qed.
  Definition afactor (s : spe) (f : factor (N:=N)) : Prop :=
    f <> [] /\ Forall (fun c => cclause c /\ NoDup (map fst c) /\ forall p, In p c -> own s (fst p)) f.
  Lemma afactor_good : forall s f, afactor s f -> good_factor (N:=N) nominal f.
  Proof.
    intros s f (_ & F). unfold good_factor. eapply Forall_impl; [|exact F]. intros c ((_ & Fc) & Nd & _). split; auto.
    eapply Forall_impl; [|exact Fc]. intros p Cp. pose proof Cp as (G & k & v & E & K). split; auto. rewrite E. cbn [lits]. constructor; auto. exists k, v. split; auto.
    intros ->. unfold fits in K. destruct (nominal (fst p)); auto. tauto.
  Qed.
  Lemma leaf_own : forall s x, wf_leaf s -> own s x -> x = var_of s.
  Proof. intros [disc y d supp cond env|y a env|y ws|l|l] x W H; try contradiction; symmetry; exact H. Qed.
  Lemma leaf_factor_total : forall s f, (1 <= fuel)%nat -> wf_leaf s -> open_leaves false s -> afactor s f -> (List.length f = 1%nat \/ open_leaves true s) ->
    exists p, (do e <- event_factor_to_event io f; leaf_logprob io po fuel s e) = Ok p.
  Proof.
    intros s f Hf W O (Ne & F) Ho. unfold event_factor_to_event.
    assert (Vx : forall x, own s x -> x = var_of s) by (intros x Hx; now apply (leaf_own s)).
    assert (exists ls, mapM (fun c : clause => reduceM (ev_and io) (map snd c)) f = Ok ls /\ Forall (cmp (var_of s)) ls /\ List.length ls = List.length f) as (ls & E & Fl & L).
    { clear Ne Ho. induction F as [|c f ((Nc & Fc) & Nd & Vc) F IH]; [exists []; split; [reflexivity|split; [constructor|reflexivity]]|]. destruct IH as (ls & E & Fl & L).
      destruct c as [|(x, a) [|(y, b) c]]; [tauto| |].
      - inversion Fc as [|? ? Ca _]; subst. cbn [fst snd] in Ca. exists (a :: ls). cbn [mapM map snd reduceM foldM bind]. rewrite E. cbn [bind List.length]. split; [reflexivity|]. split; [|auto]. constructor; auto.
        rewrite <- (Vx x); auto. apply (Vc (x, a)). now left.
      - exfalso. cbn [map fst] in Nd. inversion Nd as [|? ? Nx _]; subst. apply Nx. left. rewrite (Vx x) by (apply (Vc (x, a)); now left). apply Vx. apply (Vc (y, b)). right. now left. }
    rewrite E. cbn [bind]. destruct (reduce_flat (var_of s) ls) as (e & Ee & Fe & Be); auto. { intros ->. destruct f; [tauto|discriminate]. }
    rewrite Ee. cbn [bind]. apply leaf_total; auto. destruct Ho as [Ho|Ho]; auto. left. apply Be. congruence.
  Qed.
End Leaves.

(** ** The normal form of a conjunction has one clause *)
Section Conj.
  Context {N : numsys} (io : iterorder N) (po : polyoracle N) (fuel : nat).
  Notation tr := (tr N).
  Lemma dnf_list_one : forall e : tr, conjunctive e -> exists m, to_dnf_list e = [m] /\ Forall (fun a => is_basic a = true) m.
  Proof.
    induction e using tr_ind'; intros C; try contradiction; cbn [to_dnf_list].
    - exists [EBasic k e v]. split; [reflexivity|]. constructor; [reflexivity|constructor].
    - cbn [conjunctive] in C. enough (exists m, product (map to_dnf_list l) = [m] /\ Forall (Forall (fun a => is_basic a = true)) m) as (m & E & F).
      { rewrite E. exists (List.concat m). split; [reflexivity|]. now apply Forall_concat. }
      induction l as [|a l IH]; [exists []; split; [reflexivity|constructor]|]. destruct C as (Ca & Cl). inversion H as [|? ? Ha Hl]; subst. destruct (Ha Ca) as (m & Em & Fm). destruct (IH Hl Cl) as (ms & Es & Fs).
      cbn [map product]. rewrite Em, Es. exists (m :: ms). split; [reflexivity|auto].
  Qed.
  Definition one_clause (d : tr) : Prop := is_basic d = true \/ exists l, d = EAnd l.
  Lemma to_dnf_one : forall e d : tr, conjunctive e -> to_dnf e = Ok d -> one_clause d.
  Proof.
    intros e d C H. unfold to_dnf in H. destruct (dnf_list_one e C) as (m & E & F). rewrite E in H. cbn [mapM] in H. inv_bind H. inv_bind E0. injection E0 as <-. cbn [simplify_event] in H. injection H as <-.
    destruct m as [|a [|b m]]; cbn [simplify_event] in E1; unfold EventAnd in E1; try (inv_bind E1; injection E1 as <-; right; eauto). injection E1 as <-. left. now inversion F.
  Qed.
  Lemma factor_one : forall (d : tr) f, one_clause d -> dnf_factor io d = Ok f -> List.length f = 1%nat.
  Proof. intros d f [B|(l & ->)] H; [destruct d; try discriminate B|]; unfold dnf_factor in H; cbn [dnf_factor_with] in H; inv_bind H; injection H as <-; reflexivity. Qed.
  Lemma All_app : forall A (P : A -> Prop) l m, All P l -> All P m -> All P (l ++ m).
  Proof. induction l as [|a l IH]; intros m Hl Hm; [exact Hm|]. destruct Hl. split; auto. Qed.
  Lemma and_conjunctive : forall a b c : tr, conjunctive a -> conjunctive b -> ev_and io a b = Ok c -> conjunctive c.
  Proof.
    intros a b c Ca Cb H. destruct a as [| | | | | | | |k s v|l|l]; try contradiction; destruct b as [| | | | | | | |j t u|m|m]; try contradiction; cbn [ev_and] in H; unfold EventAnd in H.
    - destruct (teqb t s).
      + inv_bind H. destruct (event_of_set s r) as [y|] eqn:Ey; [|inv_bind H; injection H as <-; cbn; auto]. injection H as <-. destruct (event_of_set_shape _ _ _ Ey) as (k' & -> & _). exact Logic.I.
      + inv_bind H. injection H as <-. cbn. auto.
    - inv_bind H. injection H as <-. cbn [conjunctive All]. split; auto.
    - inv_bind H. injection H as <-. cbn [conjunctive]. apply All_app; cbn; auto.
    - inv_bind H. injection H as <-. cbn [conjunctive]. apply All_app; auto.
  Qed.
  Lemma reduce_conjunctive : forall l (c : tr), Forall conjunctive l -> reduceM (ev_and io) l = Ok c -> conjunctive c.
  Proof.
    intros [|a l] c F H; cbn [reduceM] in H; [discriminate|]. inversion F as [|? ? Ca Fl]; subst. clear F. revert a Ca H. induction Fl as [|b l Cb Fl IH]; intros a Ca H; cbn [foldM] in H; [injection H as <-; auto|].
    inv_bind H. apply (IH r); auto. now apply (and_conjunctive a b).
  Qed.
End Conj.

(** ** The loop over subsets of clauses *)
Definition load (n : nat) (stack : list (list nat * nat)) : nat := list_sum (map (fun p => 2 ^ (n - (1 + snd p))) stack)%nat.
Lemma list_sum_app : forall l m, list_sum (l ++ m) = (list_sum l + list_sum m)%nat.
Proof. induction l as [|a l IH]; intros m; cbn [list_sum fold_right app]; [reflexivity|]. unfold list_sum in IH. rewrite IH. unfold list_sum. lia. Qed.
Lemma geometric : forall n k m, (m + k = n)%nat -> (list_sum (map (fun i => 2 ^ (n - (1 + i))) (seq m k)) + 1 = 2 ^ k)%nat.
Proof.
  intros n. induction k as [|k IH]; intros m E; [reflexivity|]. cbn [seq map list_sum fold_right]. specialize (IH (Datatypes.S m) ltac:(lia)). unfold list_sum in IH.
  replace (n - (1 + m))%nat with k by lia. change (2 ^ Datatypes.S k)%nat with (2 * 2 ^ k)%nat. lia.
Qed.
Lemma load_push : forall n (sub : list nat) i, (i < n)%nat -> (load n (map (fun j => (sub ++ [j], j)) (seq (1 + i) (n - (1 + i)))) + 1 = 2 ^ (n - (1 + i)))%nat.
Proof. intros n sub i H. unfold load. rewrite map_map. cbn [snd]. apply geometric. lia. Qed.
Lemma load_start : forall n, (load n (map (fun j => ([j], j)) (seq 0 n)) <= 2 ^ n)%nat.
Proof. intros n. unfold load. rewrite map_map. cbn [snd]. pose proof (geometric n n 0 ltac:(lia)). lia. Qed.

Section Total.
  Context {N : numsys} {S : logsys} {D : distsys N S} (io : iterorder N) (po : polyoracle N) (fuel : nat).
  Context (dlaw : dist D -> (fval -> R) -> R) (ident : spe D -> nat) (nominal : string -> bool) (cuts points : string -> R -> Prop).
  Notation spe := (spe D).
  Notation tr := (tr N).
  Notation den := (den dlaw).
  Notation wf_spe := (wf_spe dlaw).
  Notation cmp := (cmp (N:=N) nominal cuts points).
  Notation flat := (flat (N:=N) nominal cuts points).
  Notation cclause := (cclause (N:=N) nominal cuts points).
  Notation clause := (clause (N:=N)).
  Notation factor := (factor (N:=N)).
  Notation afactor := (afactor nominal cuts points).
  Notation good_clause := (good_clause (N:=N) nominal).
  Notation good_factor := (good_factor (N:=N) nominal).
  Notation open_leaves := (open_leaves (D:=D) nominal cuts).
  Context (Hf : (1 <= fuel)%nat).
  Context (U : spe -> Prop) (Uc : closed ident U).
  Context (C1 : list ((nat * factor) * spe) -> Prop) (C2 : list ((nat * assignment (N:=N)) * (nat * lg S)) -> Prop) (C3 : list ((nat * assignment (N:=N)) * spe) -> Prop).
  Notation valid := (valid dlaw ident U C1 C2 C3).
  Notation safe := (safe valid).
  Notation sat := (sat valid).

  Lemma open_atoms : forall s b, open_leaves b s -> atoms_ok nominal s.
  Proof.
    induction s using spe_ind'; intros b O; cbn [TotalSpec.open_leaves atoms_ok] in *; auto.
    - apply O.
    - apply All_intro. intros c Hc. apply (H c Hc b). exact (SpeFacts.All_In _ _ _ _ O Hc).
    - apply All_intro. intros c Hc. apply (H c Hc false). exact (SpeFacts.All_In _ _ _ _ O Hc).
  Qed.
  Lemma open_weaken : forall s b, open_leaves b s -> open_leaves false s.
  Proof.
    induction s using spe_ind'; intros b O; cbn [TotalSpec.open_leaves] in *; auto.
    - destruct O as (A & _). split; auto. discriminate.
    - apply All_intro. intros c Hc. apply (H c Hc b). exact (SpeFacts.All_In _ _ _ _ O Hc).
  Qed.
  Lemma memo_safe : forall s f x, safe x -> safe (memo_logprob ident s f x).
  Proof.
    intros s f x H t Ht. unfold memo_logprob. destruct (find_key factor_key_eqb (ident s, f) (m_logprob t)); [eexists; reflexivity|].
    destruct (H t Ht) as (a & E). destruct (x t) as [r t']. cbn [fst] in E. subst r. eexists. reflexivity.
  Qed.
  Lemma add_key_total : forall c x a, Forall (fun p => cmp (fst p) (snd p)) c -> cmp x a -> exists c', add_key io c x a = Ok c'.
  Proof.
    induction c as [|(k, b) c IH]; intros x a F C; cbn [add_key]; eauto. inversion F as [|? ? Cb F']; subst. cbn [fst snd] in Cb. destruct (String.eqb_spec x k) as [<-|Nk].
    - destruct (and_lit_total io x b a) as (e & ->); [apply Cb|apply C|destruct Cb as (_ & k' & v & -> & _); exists k', v; reflexivity|destruct C as (_ & k' & v & -> & _); exists k', v; reflexivity|]. cbn [bind]. eauto.
    - destruct (IH x a F' C) as (c' & ->). cbn [bind]. eauto.
  Qed.

  Section Prod.
    Context (l : list spe) (Wl : wf_spe (ProductSPE l)).
    Notation kids := (kids io po fuel ident l).
    Context (Kids : forall c, In c l -> forall f, good_factor f -> sat (logprob_mem io po fuel ident c f) (prob_ok dlaw c f)).
    Context (Safe : forall c, In c l -> forall f, afactor c f -> List.length f = 1%nat -> safe (logprob_mem io po fuel ident c f)).

    Lemma child_total : forall (m : list spe) x i c, In c m -> vars c x -> exists j, child_of x i (map (get_symbols (D:=D)) m) = Some j.
    Proof.
      induction m as [|d m IH]; intros x i c Hc V; [destruct Hc|]. cbn [map child_of]. destruct (child_of x (1 + i) (map get_symbols m)) eqn:E; eauto. destruct Hc as [->|Hc].
      - replace (inb String.eqb x (get_symbols c)) with true; eauto. symmetry. apply inb_string. now apply (get_symbols_vars dlaw).
      - destruct (IH x (1 + i)%nat c Hc V) as (j & Ej). congruence.
    Qed.
    Lemma lookup_total : forall x, own (ProductSPE l) x -> exists i, lookup_child kids x = Ok i.
    Proof.
      intros x V. apply (own_vars dlaw) in V; auto. unfold lookup_child, LogprobProofs.kids. rewrite map_map. cbn [fst]. cbn [vars] in V.
      assert (exists c, In c l /\ vars c x) as (c & Hc & Vc). { clear -V. induction l as [|d m IH]; [destruct V|]. destruct V as [V|V]; [exists d; split; auto; now left|]. destruct (IH V) as (c & Hc & Vc). exists c. split; auto. now right. }
      destruct (child_total l x 0 c Hc Vc) as (j & Ej). exists j. destruct (child_of x 0 _) eqn:E0; congruence.
    Qed.
    Definition fit (p : string * tr) : Prop := cmp (fst p) (snd p) /\ own (ProductSPE l) (fst p).
    Lemma conj_from_total : forall key items c0, Forall fit items -> Forall (fun p => cmp (fst p) (snd p) /\ lookup_child kids (fst p) = Ok key /\ own (ProductSPE l) (fst p)) c0 ->
      exists c, foldM (fun c p => do i <- lookup_child kids (fst p); if Nat.eqb i key then add_key io c (fst p) (snd p) else Ok c) items c0 = Ok c /\ Forall (fun p => cmp (fst p) (snd p) /\ lookup_child kids (fst p) = Ok key /\ own (ProductSPE l) (fst p)) c.
    Proof.
      intros key. induction items as [|p items IH]; intros c0 F F0; cbn [foldM]; eauto. inversion F as [|? ? (Cp & Vp) F']; subst. destruct (lookup_total _ Vp) as (i & Ei). rewrite Ei. cbn [bind]. destruct (Nat.eqb_spec i key) as [->|Ni].
      - assert (Fc : Forall (fun p => cmp (fst p) (snd p)) c0) by (eapply Forall_impl; [|exact F0]; intros a (Ha & _); exact Ha).
        destruct (add_key_total c0 (fst p) (snd p) Fc Cp) as (c & Ec). rewrite Ec. cbn [bind]. apply IH; auto.
        clear -Ec F0 Cp Ei Vp. revert c Ec. induction F0 as [|(k, b) c0 (Cb & Lb) F0 IH]; intros c Ec; cbn [add_key] in Ec.
        + injection Ec as <-. auto.
        + cbn [fst snd] in *. destruct (String.eqb_spec (fst p) k) as [<-|Nk]; inv_bind Ec; injection Ec as <-; constructor; auto. cbn [fst snd]. split; auto. now apply (and_cmp io nominal cuts points _ b (snd p)).
      - cbn [bind]. apply IH; auto.
    Qed.
    Definition wide (J : list clause) : Prop := Forall (fun c => good_clause c /\ Forall fit c) J.
    Lemma wide_items : forall J, wide J -> Forall fit (conj_items J).
    Proof. intros J W. apply Forall_concat. eapply Forall_impl; [|exact W]. intros c (_ & F). exact F. Qed.
    Lemma wide_good : forall J, wide J -> Forall good_clause J.
    Proof. intros J W. eapply Forall_impl; [|exact W]. intros c (G & _). exact G. Qed.
    Lemma key_safe : forall J key, wide J -> (exists p, In p (conj_items J) /\ lookup_child kids (fst p) = Ok key) -> safe (logprob_conjunction_key io kids J key).
    Proof.
      intros J key W Ex. unfold logprob_conjunction_key. destruct (conj_from_total key (conj_items J) [] (wide_items J W) ltac:(constructor)) as (c & Ec & Fc).
      apply safe_bind with (P := fun c' => c' = c).
      - apply sat_lift. intros c' E. unfold conjunction_clause in E. congruence.
      - apply safe_lift. exists c. exact Ec.
      - intros c' ->. destruct c as [|p0 c0] eqn:E; [apply safe_ret|]. rewrite <- E in *.
        destruct (conj_clause_from io po fuel ident nominal l _ key [] c (items_good nominal J (wide_good J W)) (good_nil nominal) Ec) as (Gc & _).
        destruct Ex as (p & Hp & El). destruct (lookup_ok io po fuel dlaw ident l _ _ El) as (ch & Ech & _).
        replace (nth_error kids key) with (Some (get_symbols ch, logprob_mem io po fuel ident ch)) by (unfold LogprobProofs.kids; now rewrite nth_error_map, Ech). cbn [snd].
        apply Safe; auto; [eapply nth_error_In; eauto|]. split; [discriminate|]. constructor; [|constructor]. split; [split; [rewrite E; discriminate|eapply Forall_impl; [|exact Fc]; intros a (Ha & _); exact Ha]|]. split; [apply Gc|].
        intros q Hq. rewrite Forall_forall in Fc. destruct (Fc q Hq) as (_ & Lq & Oq). destruct (lookup_ok io po fuel dlaw ident l _ _ Lq) as (c' & Ec' & Vc). assert (c' = ch) as -> by congruence. clear Ec'.
        apply (own_child dlaw l); auto; eapply nth_error_In; eauto.
    Qed.
    Lemma conjunction_safe : forall J, wide J -> safe (logprob_conjunction io kids J).
    Proof.
      intros J W. unfold logprob_conjunction. pose proof (wide_items J W) as Fi.
      apply safe_bind with (P := fun keys => mapM (fun p => lookup_child kids (fst p)) (conj_items J) = Ok keys); [apply sat_lift; auto| |].
      - apply safe_lift. induction Fi as [|p items (_ & V) Fi IH]; [exists []; reflexivity|]. cbn [mapM]. destruct (lookup_total _ V) as (i & ->). destruct IH as (ks & ->). cbn [bind]. eauto.
      - intros keys Hk. apply mapM_Forall2 in Hk.
        assert (K : forall k, In k (dedup Nat.eqb keys) -> exists p, In p (conj_items J) /\ lookup_child kids (fst p) = Ok k).
        { intros k Hin. apply (proj1 (dedup_nat_In _ _)) in Hin. destruct (Forall2_in_r _ _ _ _ _ _ Hk Hin) as (p & Hp & El). exists p. auto. }
        apply safe_bind with (P := fun _ => True).
        + eapply sat_weaken; [apply sat_mmap|auto]. intros k Hin. apply (share_key io po fuel dlaw ident nominal U C1 C2 C3 l); auto. now apply wide_good.
        + apply safe_mmap with (P := fun k p => exists c, nth_error l k = Some c /\ forall w, toP p = den c (ind (share io po fuel ident l (conj_items J) k)) w). intros k Hin. split; [|apply key_safe; auto].
          apply (share_key io po fuel dlaw ident nominal U C1 C2 C3 l); auto. now apply wide_good.
        + intros ps _. apply safe_ret.
    Qed.

    Context (f : factor) (Af : afactor (ProductSPE l) f).
    Notation n := (List.length f).
    Lemma subset_wide : forall sub, wide (map (fun j => nth j f []) sub).
    Proof.
      intros sub. unfold wide. rewrite Forall_map. apply Forall_forall. intros j _. pose proof (afactor_good nominal cuts points _ f Af) as G. unfold MemoProofs.good_factor in G. rewrite Forall_forall in G.
      destruct (nth_in_or_default j f []) as [H|E]; [|rewrite E; split; [apply good_nil|constructor]]. split; [auto|]. destruct Af as (_ & F). rewrite Forall_forall in F. destruct (F _ H) as ((_ & Fc) & _ & V).
      apply Forall_forall. intros p Hp. rewrite Forall_forall in Fc. split; auto.
    Qed.
    Lemma conj_sat : forall sub, sat (logprob_conjunction io kids (map (fun j => nth j f []) sub)) (fun _ => True).
    Proof. intros sub. eapply sat_weaken; [apply (conjunction_ok io po fuel dlaw ident nominal U C1 C2 C3 l Wl Kids), wide_good, subset_wide|auto]. Qed.
    Lemma loop_safe : forall k stack avoid pos neg, Forall (fun p => (snd p < n)%nat) stack -> (load n stack <= k)%nat -> safe (ie_loop io kids f k stack avoid pos neg).
    Proof.
      induction k as [|k IH]; intros [|(sub, i) stack] avoid pos neg Fs L; cbn [ie_loop]; try apply safe_ret.
      - exfalso. unfold load in L. cbn [map list_sum fold_right snd] in L. pose proof (Nat.pow_nonzero 2 (n - (1 + i)) ltac:(lia)). lia.
      - inversion Fs as [|? ? Hi Fs']; subst. cbn [snd] in Hi. unfold load in L. cbn [map list_sum fold_right snd] in L. fold (list_sum (map (fun p : list nat * nat => 2 ^ (n - (1 + snd p)))%nat stack)) in L. fold (load n stack) in L.
        pose proof (load_push n sub i Hi) as Lp. destruct (existsb _ avoid).
        + apply IH; auto. lia.
        + apply safe_bind with (P := fun _ => True); [apply conj_sat|apply conjunction_safe, subset_wide|]. intros p _.
          assert (Fs2 : Forall (fun p => (snd p < n)%nat) (stack ++ map (fun i0 => (sub ++ [i0], i0)) (seq (1 + i) (n - (1 + i))))).
          { apply Forall_app. split; auto. rewrite Forall_map. apply Forall_forall. intros j Hj. apply in_seq in Hj. cbn [snd]. lia. }
          assert (L2 : (load n (stack ++ map (fun i0 => (sub ++ [i0], i0)) (seq (1 + i) (n - (1 + i)))) <= k)%nat).
          { unfold load. rewrite map_app, list_sum_app. fold (load n stack). fold (load n (map (fun i0 => (sub ++ [i0], i0)) (seq (1 + i) (n - (1 + i))))). lia. }
          destruct (Nat.odd (List.length sub)); now apply IH.
    Qed.
    Lemma loop_pos : forall k stack avoid pos neg,
      (pos <> [] \/ (avoid = [] /\ match stack with p :: _ => Nat.odd (List.length (fst p)) = true | [] => False end)) ->
      sat (ie_loop io kids f k stack avoid pos neg) (fun pn => fst pn <> []).
    Proof.
      assert (App : forall (a : list (lg S)) p, a ++ [p] <> []) by (intros a p E; apply app_eq_nil in E; destruct E; discriminate).
      induction k as [|k IH]; intros [|(sub, i) stack] avoid pos neg H; cbn [ie_loop]; try (apply sat_ret; cbn [fst]; tauto).
      - apply sat_lift. intros a E. discriminate E.
      - cbn [fst] in H. destruct (existsb _ avoid) eqn:Ea.
        + apply IH. left. destruct H as [H|(-> & _)]; [auto|discriminate Ea].
        + apply sat_bind with (P := fun _ => True); [apply conj_sat|]. intros p _. destruct (Nat.odd (List.length sub)) eqn:Eo; apply IH; left; auto.
          destruct H as [H|(_ & H)]; [auto|congruence].
    Qed.
    Lemma product_safe : safe (product_logprob io kids f).
    Proof.
      unfold product_logprob. pose proof (afactor_good nominal cuts points _ f Af) as Gf. pose proof Af as (Nf & _).
      assert (Fs : Forall (fun p => (snd p < n)%nat) (map (fun i => ([i], i)) (seq 0 n))) by (rewrite Forall_map; apply Forall_forall; intros j Hj; apply in_seq in Hj; cbn [snd]; lia).
      apply safe_bind with (P := fun pn => (forall w, sumR (map toP (fst pn)) - sumR (map toP (snd pn)) = den (ProductSPE l) (ind (factor_holds f)) w) /\ fst pn <> []).
      - apply sat_and; [|apply loop_pos; right; split; auto; destruct f; [tauto|reflexivity]].
        eapply sat_weaken; [apply (ie_loop_ok io po fuel dlaw ident nominal U C1 C2 C3 l Wl Kids f Gf); [exact Fs|constructor]|].
        intros pn H w. rewrite (H w), (parts_all (den_kernel dlaw _ Wl w)). cbn [map sumR fold_right]. rewrite Rminus_0_r, Rplus_0_l. f_equal. apply ind_iff. intros a. unfold factor_holds, ev_of. split.
        + intros (j & Hj & K). exists (nth j f []). split; auto. now apply nth_In.
        + intros (c & Hc & K). destruct (In_nth f c [] Hc) as (j & Hj & <-). eauto.
      - apply loop_safe; auto. apply load_start.
      - intros (pos, neg) (H & Np). cbn [fst snd] in *. assert (P01 : forall w, 0 <= den (ProductSPE l) (ind (factor_holds f)) w) by (intros w; apply (law_01 (den_kernel dlaw _ Wl w))).
        destruct (lse_ok S pos Np) as (p & Ep & Hp). rewrite Ep. apply safe_bind with (P := fun p' => p' = p); [apply sat_lift; congruence|apply safe_lift; eauto|]. intros p' ->. destruct (lisninf p); cbn [orb]; [apply safe_ret|].
        destruct neg as [|q0 neg0] eqn:En; cbn [is_nil]; [apply safe_ret|]. rewrite <- En in *. destruct (lse_ok S neg) as (q & Eq & Hq); [rewrite En; discriminate|]. rewrite Eq. apply safe_bind with (P := fun q' => q' = q); [apply sat_lift; congruence|apply safe_lift; eauto|].
        intros q' ->. apply safe_lift. destruct (ldiff_ok S p q) as (r & Er & _); eauto. specialize (H (fun _ => FNum 0)). specialize (P01 (fun _ => FNum 0)). lra.
    Qed.
  End Prod.

  Theorem mem_safe : forall s, U s -> wf_spe s -> forall many, open_leaves many s -> forall f, afactor s f -> (many = false -> List.length f = 1%nat) -> safe (logprob_mem io po fuel ident s f).
  Proof.
    assert (Leaf : forall s many f, SpeSpec.wf_leaf dlaw s -> open_leaves many s -> afactor s f -> (many = false -> List.length f = 1%nat) -> exists p, (do e <- event_factor_to_event io f; leaf_logprob io po fuel s e) = Ok p).
    { intros s many f W O A L. apply (leaf_factor_total io po fuel dlaw nominal cuts points); auto; [now apply (open_weaken _ many)|]. destruct many; auto. }
    induction s using spe_ind'; intros Us W many O f A L; cbn [logprob_mem]; apply memo_safe.
    - apply safe_lift. now apply (Leaf _ many).
    - apply safe_lift. now apply (Leaf _ many).
    - apply safe_lift. now apply (Leaf _ many).
    - assert (K : forall c, In c l -> sat (mbind (logprob_mem io po fuel ident (fst c) f) (fun p => mret (ladd p (snd c)))) (fun _ => True) /\ safe (mbind (logprob_mem io po fuel ident (fst c) f) (fun p => mret (ladd p (snd c))))).
      { intros c Hc. assert (Uc' : U (fst c)) by (eapply (proj1 Uc); eauto). assert (Wc : wf_spe (fst c)) by (eapply sum_wf; eauto). pose proof (SpeFacts.All_In _ _ _ _ O Hc) as Oc. cbv beta in Oc.
        assert (Sc : sat (logprob_mem io po fuel ident (fst c) f) (prob_ok dlaw (fst c) f)) by (apply logprob_mem_ok with (nominal := nominal); auto; [now apply (open_atoms _ many)|now apply (afactor_good nominal cuts points (SumSPE l))]).
        assert (Ac : afactor (fst c) f).
        { destruct A as (Nf & F). split; auto. eapply Forall_impl; [|exact F]. intros cl (C & Nd & V). split; auto. split; auto. intros p Hp. specialize (V p Hp). cbn [own] in V. exact (SpeFacts.All_In _ _ _ _ V Hc). }
        split.
        - apply sat_bind with (P := prob_ok dlaw (fst c) f); auto. intros p _. apply sat_ret. auto.
        - apply safe_bind with (P := prob_ok dlaw (fst c) f); auto; [now apply (H c Hc Uc' Wc many)|]. intros p _. apply safe_ret. }
      apply safe_bind with (P := fun ps => Forall2 (fun _ _ => True) l ps).
      + apply sat_mmap. intros c Hc. now apply K.
      + apply safe_mmap with (P := fun _ _ => True). intros c Hc. now apply K.
      + intros ps Fp. apply safe_lift. destruct (lse_ok S ps) as (r & Er & _); eauto. intros ->. inversion Fp; subst. destruct W as (_ & T & _). cbn in T. lra.
    - apply (product_safe l W); auto.
      + intros c Hc g Gg. apply logprob_mem_ok with (nominal := nominal); auto; [eapply (proj1 (proj2 Uc)); eauto|eapply prod_wf; eauto|]. apply (open_atoms c false). exact (SpeFacts.All_In _ _ _ _ O Hc).
      + intros c Hc g Ag Lg. apply (H c Hc) with (many := false); auto; [eapply (proj1 (proj2 Uc)); eauto|eapply prod_wf; eauto|]. exact (SpeFacts.All_In _ _ _ _ O Hc).
  Qed.
End Total.
