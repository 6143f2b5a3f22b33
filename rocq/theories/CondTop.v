(** condition on events. *)
From Coq Require Import List Bool String Reals Lra Lia ZArith QArith Qreals FunctionalExtensionality Permutation.
From Verif Require Import Base Num Sets SetSpec SetIv SetProofs SetOr SetOps SetAlg SetBuilt
  Poly Trans TransSpec TransFacts PolyProofs InvProofs InvMain EvProofs ArithProofs
  Dnf DnfSpec DnfProofs DnfUnion Logs Spe SpeSpec SpeFacts SpeRect LeafProofs LeafEvents LeafCond SpeCons LeafGiven MemoProofs NormSorts LogprobProofs LogprobTop SpeEq SimplifyProofs CondTypes CondProofs.
Import ListNotations.
Local Open Scope R_scope.

Section Lits.
  Context {N : numsys} (io : iterorder N) (po : polyoracle N) (fuel : nat) (nominal : string -> bool).
  Notation tr := (tr N).
  Notation lit_in := (lit_in (N:=N) nominal).
  Lemma inv_basic_in : forall (K : string -> Prop) k x v (n : tr), K x -> (k = KNom -> nominal x = true) -> gev n -> inv_basic io k (TId x) v = Ok n -> Forall (lit_in K) (lits n).
  Proof.
    intros K k x v n Kx Hn G H. pose proof (gev_lits _ G) as Gl.
    assert (B : Forall (fun l => exists j u, l = EBasic j (TId x) u /\ (j = KNom -> k = KNom)) (lits n)).
    { unfold inv_basic in H. inv_bind H. destruct k.
      - destruct r as [|[]|[|a [|b [|]]]]; try discriminate; try (injection H as <-; cbn; constructor; auto; eexists; eexists; split; [reflexivity|discriminate]).
        inv_bind H. inv_bind H. apply EventOr_shape in H. subst n. destruct a; try discriminate. destruct b; try discriminate.
        injection E0 as <-. injection E1 as <-. cbn. constructor; [|constructor; [|constructor]]; eexists; eexists; (split; [reflexivity|discriminate]).
      - destruct (peqb r Reals); [injection H as <-; cbn; constructor; auto; eexists; eexists; split; [reflexivity|discriminate]|]. destruct r as [| |args]; try discriminate.
        inv_bind H. apply EventOr_shape in H. subst n. cbn [lits]. apply mapM_Forall2 in E0. apply lits_list.
        clear -E0. induction E0 as [|a y l m H E IH]; constructor; auto. destruct a; try discriminate. injection H as <-. cbn. constructor; auto. eexists; eexists; split; [reflexivity|discriminate].
      - destruct r as [|[]|]; try discriminate; injection H as <-; cbn; constructor; auto; eexists; eexists; split; auto. }
    rewrite Forall_forall in *. intros l Hl. destruct (B l Hl) as (j & u & -> & Hj). split; [apply Gl; auto|]. exists x. split; auto. exists j, u. auto.
  Qed.
  Lemma not_in : forall (K : string -> Prop) (e n : tr), gev e -> ev_not io e = Ok n -> Forall (lit_in K) (lits e) -> Forall (lit_in K) (lits n).
  Proof.
    intros K. induction e using tr_ind'; intros n G H' O; cbn [ev_not] in H'; try discriminate.
    - pose proof (ev_not_ok io _ n G H') as (Gn & _). inversion O as [|? ? (_ & x & Kx & k1 & v1 & H1 & Nm) _]; subst. injection H1 as <- -> <-. eapply inv_basic_in; eauto.
    - inv_bind H'. apply gev_or in G. destruct G as (_ & G). cbn [lits] in O. apply lits_list in O. apply mapM_Forall2 in E.
      eapply (reduce_lits (ev_and io)); [|exact H'|].
      + intros a b c. apply lit_in_and.
      + rewrite Forall_forall in *. intros y Hy. destruct (Forall2_in_r _ _ _ _ _ _ E Hy) as (x & Hx & Ex). apply (H x); auto.
    - inv_bind H'. apply gev_and in G. destruct G as (_ & G). cbn [lits] in O. apply lits_list in O. apply mapM_Forall2 in E.
      eapply (reduce_lits (ev_or io)); [|exact H'|].
      + intros a b c. apply lit_in_or.
      + rewrite Forall_forall in *. intros y Hy. destruct (Forall2_in_r _ _ _ _ _ _ E Hy) as (x & Hx & Ex). apply (H x); auto.
  Qed.
  Lemma cascade_in : forall (K : string -> Prop) p c, gev (fst p) -> Forall gev (snd p) -> cascade io p = Ok c ->
    Forall (lit_in K) (lits (fst p)) -> Forall (fun e => Forall (lit_in K) (lits e)) (snd p) -> Forall (lit_in K) (lits c).
  Proof.
    intros K (e, o) c. unfold cascade. cbn [fst snd]. intros _ Go H Le Lo. revert e Le H. induction Lo as [|x o Lx F IH]; intros e Le H; cbn [foldM] in H.
    - now injection H as <-.
    - inv_bind H. inv_bind E. inversion Go; subst. apply (IH ltac:(auto) r); auto. eapply lit_in_and; [exact E| |]; auto. eapply not_in; eauto.
  Qed.
  Lemma in_kinds : forall K e, Forall (lit_in K) (lits e) -> event_kinds nominal e.
  Proof.
    intros K e. apply Forall_impl. intros l (_ & x & _ & k & v & -> & Hk). unfold kind_ok, num_lit. destruct k; [left; exact I|left; exact I|right]. intros y [<-|[]]. auto.
  Qed.
  Lemma in_symbols : forall K e, Forall (lit_in K) (lits e) -> forall x, In x (symbols e) -> K x.
  Proof.
    intros K e F x Hx. apply symbols_lits in Hx. destruct Hx as (l & Hl & Hx). rewrite Forall_forall in F. destruct (F l Hl) as (_ & y & Ky & k & v & -> & _). destruct Hx as [<-|[]]. exact Ky.
  Qed.
  Lemma in_weaken : forall (K J : string -> Prop) e, (forall x, K x -> J x) -> Forall (lit_in K) (lits e) -> Forall (lit_in J) (lits e).
  Proof. intros K J e H. apply Forall_impl. intros l (G & x & Kx & L). split; auto. exists x. auto. Qed.
  Lemma union_in : forall (K : string -> Prop) n e d, gev e -> is_dnf e -> Forall (lit_in K) (lits e) -> disjoint_union io po fuel n e = Ok d -> Forall (lit_in K) (lits d).
  Proof.
    intros K. induction n as [|n IH]; intros e d G De L H; destruct e as [| | | | | | | |k t v|l|l]; try discriminate H; cbn [disjoint_union] in H; try (now injection H as <-).
    - inv_bind H. destruct (forallb _ r); [|discriminate]. now injection H as <-.
    - inv_bind H. pose proof (non_disjoint_ok io po fuel l r G (lit_in_on_vars nominal _ _ L) E) as T. destruct (forallb _ r); [now injection H as <-|].
      inv_bind H. inv_bind H. inv_bind H. rename r into t, r0 into cs, r1 into ns, r2 into ds. apply gev_or in G. destruct G as (_ & Gl). cbn [lits] in L. apply lits_list in L.
      pose proof (table_in _ _ _ T) as Ti. cbn [app] in Ti. apply mapM_Forall2 in E0, E1, E2. eapply (reduce_lits (ev_or io)); [|exact H|]; [intros a b c; apply lit_in_or|].
      apply Forall_forall. intros d' Hd. destruct (Forall2_in_r _ _ _ _ _ _ E2 Hd) as (x & Hx & Ex). unfold somes in Hx. apply in_flat_map in Hx. destruct Hx as ([x'|] & Hn & Hx); [|destruct Hx]. destruct Hx as [->|[]].
      destruct (Forall2_in_r _ _ _ _ _ _ E1 Hn) as (c & Hc & Ec). destruct (Forall2_in_r _ _ _ _ _ _ E0 Hc) as (p & Hp & Ep). rewrite Forall_forall in *. destruct (Ti p Hp) as (T1 & T2).
      assert (Gc : gev c) by (apply (cascade_ok io p c); auto; apply Forall_forall; auto).
      assert (Lc : Forall (lit_in K) (lits c)) by (apply (cascade_in K p c); auto; apply Forall_forall; auto).
      pose proof (dnf_normalize_ok io po fuel c _ Gc Ec) as (Gx & Dx & _). apply Forall_forall. refine (IH x d' Gx Dx _ Ex).
      apply (in_weaken (fun y => In y (symbols c))); [apply (in_symbols _ _ Lc)|]. apply (normalize_kinds io po fuel nominal c); auto. now apply (in_kinds K).
  Qed.
End Lits.

Section Top.
  Context {N : numsys} {S : logsys} {D : distsys N S} (io : iterorder N) (so : strorder) (po : polyoracle N) (fuel : nat).
  Context (dlaw : dist D -> (fval -> R) -> R) (Ed : eq_dist dlaw) (ident : spe D -> nat) (hash : spe D -> Z).
  Context (nominal : string -> bool) (envof : string -> tenv (N:=N)).
  Notation spe := (spe D).
  Notation tr := (tr N).
  Notation den := (den dlaw).
  Notation wf_spe := (wf_spe dlaw).
  Notation surely := (surely dlaw).
  Notation wf_leaf := (wf_leaf dlaw).
  Notation lit_in := (lit_in (N:=N) nominal).
  Notation typed := (typed (D:=D) nominal envof).
  Notation cond_ok := (cond_ok dlaw nominal envof).
  Context (U : spe -> Prop) (Uc : closed ident U).
  Context (C2 : list ((nat * assignment (N:=N)) * (nat * lg S)) -> Prop) (C3 : list ((nat * assignment (N:=N)) * spe) -> Prop).
  Notation valid := (valid dlaw ident U (Forall (centry_ok dlaw ident nominal envof U)) C2 C3).

  Lemma cond_ok_as : forall s F G t, wf_spe s -> (forall w, den s (ind (fun a => ~ (F a <-> G a))) w = 0) -> cond_ok s F t -> cond_ok s G t.
  Proof.
    intros s F G t W Z (A & B & C & P & H). assert (E : forall g w, bnd g -> den s (fun a => g a * ind F a) w = den s (fun a => g a * ind G a) w).
    { intros g w Bg. apply (den_as dlaw s (fun a => ~ (F a <-> G a))); auto with bnd. intros a Ha. f_equal. apply ind_eq. destruct (dec (F a <-> G a)); tauto. }
    assert (E1 : forall w, den s (ind F) w = den s (ind G) w).
    { intros w. pose proof (E (fun _ => 1) w (bnd_const _ 1)) as K. transitivity (den s (fun a => 1 * ind F a) w); [f_equal; extensionality a; ring|]. rewrite K. f_equal; extensionality a; ring. }
    split; auto. split; auto. split; auto. split.
    - intros w. rewrite <- E1. auto.
    - intros g Sg w. rewrite <- E1, <- E by (now apply simple_bnd). now apply H.
  Qed.

  Lemma nonzero_null : forall s (l : list tr) (ps : list (lg S)), wf_spe s -> Forall2 (fun c p => forall w, toP p = den s (ind (holds c)) w) l ps ->
    forall w, den s (ind (fun a => (exists c, In c l /\ holds c a) /\ ~ exists c, In c (map fst (positive (combine l ps))) /\ holds c a)) w = 0.
  Proof.
    intros s l ps W F w. pose proof (den_kernel dlaw s W w) as K. induction F as [|c p l ps Hp F IH].
    - rewrite (law_ext (I:=fun g => den s g w) _ (fun _ => 0)); [apply (law_const K)|]. intros a. apply ind_false. intros ((c & [] & _) & _).
    - unfold positive in *. cbn [combine filter snd fst]. destruct (lisninf p) eqn:En; cbn [negb map fst].
      + apply lisninf_ok in En. rewrite (Hp w) in En. apply (law_null_sub K (fun a => holds c a \/ ((exists c, In c l /\ holds c a) /\ ~ exists c, In c (map fst (filter (fun q => negb (lisninf (snd q))) (combine l ps))) /\ holds c a))).
        * now apply (law_null_or K).
        * intros a ((d & [<-|Hd] & Ha) & Nk); [now left|right]. split; eauto.
      + refine (law_null_sub K _ _ IH _). intros a ((d & [<-|Hd] & Ha) & Nk).
        * exfalso. apply Nk. exists c. split; auto. now left.
        * split; eauto. intros (x & Hx & Kx). apply Nk. exists x. split; auto. now right.
  Qed.
  Lemma nonzero_ok : forall s d, U s -> wf_spe s -> typed s -> gev d -> is_dnf d -> Forall (lit_in (vars s)) (lits d) -> (sorted nominal d \/ is_basic d = true) ->
    sat valid (nonzero_clauses io po fuel ident s d) (fun d' => gev d' /\ is_dnf d' /\ Forall (lit_in (vars s)) (lits d') /\ (sorted nominal d' \/ is_basic d' = true) /\
      forall w, den s (ind (fun a => ~ (holds d' a <-> holds d a))) w = 0).
  Proof.
    intros s d Us W T G Dn L So. pose proof (typed_atoms nominal envof s T) as A. unfold nonzero_clauses.
    assert (Same : forall d', d' = d -> gev d' /\ is_dnf d' /\ Forall (lit_in (vars s)) (lits d') /\ (sorted nominal d' \/ is_basic d' = true) /\
      forall w, den s (ind (fun a => ~ (holds d' a <-> holds d a))) w = 0).
    { intros d' ->. do 4 (split; auto). intros w. rewrite (law_ext (I:=fun g => den s g w) _ (fun _ => 0)); [apply (law_const (den_kernel dlaw s W w))|]. intros a. apply ind_false. tauto. }
    destruct d as [| | | | | | | |k t v|l|l]; try (apply sat_ret; now apply Same). clear Same.
    apply gev_or in G. destruct G as (Nl & Gl). cbn [lits] in L. apply lits_list in L. destruct So as [So|So]; [|discriminate]. unfold sorted in So. cbn [lits] in So. apply lits_list in So.
    apply sat_bind with (P := Forall2 (fun c f => dnf_factor io c = Ok f) l); [apply sat_lift; intros fs H; now apply mapM_Forall2 in H|]. intros fs Hfs.
    assert (Gf : Forall2 (fun c f => good_factor nominal f /\ forall w, factor_holds f w <-> holds c w) l fs).
    { eapply Forall2_imp; [|exact Hfs]. intros c f Hc _ Hf. rewrite Forall_forall in *. destruct (factor_good io nominal (vars s) c f (Gl c Hc) (L c Hc) Hf) as (G1 & G2 & _). auto. }
    apply sat_bind with (P := Forall2 (prob_ok dlaw s) fs).
    { apply sat_mmap. intros f Hf. destruct (Forall2_in_r _ _ _ _ _ _ Gf Hf) as (c & _ & G1 & _). now apply logprob_mem_ok with (nominal := nominal). }
    intros ps Hps. assert (Hp : Forall2 (fun c p => forall w, toP p = den s (ind (holds c)) w) l ps).
    { clear -Gf Hps. revert ps Hps. induction Gf as [|c f l fs (_ & H) F IH]; intros ps Hps; inversion Hps as [|? p ? ps' H1 H2]; subst; constructor; auto. intros w. rewrite (H1 w). f_equal. now apply ind_iff. }
    destruct (positive (combine l ps)) as [|q qs] eqn:Eq; [apply sat_lift; discriminate|]. rewrite <- Eq. apply sat_lift. intros d' Hd'.
    assert (Sub : forall c, In c (map fst (positive (combine l ps))) -> In c l).
    { intros c Hc. apply in_map_iff in Hc. destruct Hc as ((c', p) & <- & Hc). apply filter_In in Hc. destruct Hc as (Hc & _). now apply in_combine_l in Hc. }
    assert (Gd' : gev d') by (apply (EventOr_ok (map fst (positive (combine l ps)))); auto; rewrite Forall_forall in *; auto). apply EventOr_shape in Hd'. subst d'. assert (Nq : map fst (positive (combine l ps)) <> []) by (rewrite Eq; discriminate). rewrite Forall_forall in Gl, L, So.
    split; [|split; [|split; [|split]]].
    - exact Gd'.
    - right. exists (map fst (positive (combine l ps))). split; auto. split; auto. destruct (dnf_clauses _ Dn) as (_ & Fc). cbn [clauses] in Fc. rewrite Forall_forall in *. auto.
    - cbn [lits]. apply lits_list, Forall_forall. auto.
    - left. unfold sorted. cbn [lits]. apply lits_list, Forall_forall. auto.
    - intros w. apply (law_null_sub (den_kernel dlaw s W w) _ _ (nonzero_null s l ps W Hp w)). intros a Ha. rewrite !holds_or in Ha. destruct (dec (exists c, In c l /\ holds c a)) as [E|E].
      + split; auto. intros K. tauto.
      + exfalso. apply Ha. split; [|tauto]. intros (x & Hx & Kx). exists x. auto.
  Qed.

  (** normal forms into disjoint clauses lose only ill-sorted assignments *)
  Lemma union_null : forall s d d', wf_spe s -> typed s -> gev d -> is_dnf d -> Forall (lit_in (vars s)) (lits d) -> (sorted nominal d \/ is_basic d = true) ->
    disjoint_union io po fuel fuel d = Ok d' -> forall w, den s (ind (fun a => ~ (holds d' a <-> holds d a))) w = 0.
  Proof.
    intros s d d' W T G Dn L So H w. pose proof (lit_in_on_vars nominal _ _ L) as Ov. destruct (disjoint_union_ok io po fuel nominal fuel d d' G Dn Ov H) as ((Gd & _) & Snd & Cmp).
    pose proof (union_in io po fuel nominal (vars s) fuel d d' G Dn L H) as Ld.
    apply (law_null_sub (den_kernel dlaw s W w) _ _ (typed_sorted dlaw nominal envof s W T w)). intros a Ha. destruct (dec (bad nominal (vars s) a)) as [K|K]; auto. exfalso. apply Ha. split; [apply Snd|].
    set (a' := fun x => if dec (vars s x) then a x else if nominal x then FStr EmptyString else FNum 0).
    assert (Sa : sorted_asg nominal a').
    { intros x. unfold a'. destruct (dec (vars s x)) as [V|V]; [|destruct (nominal x); reflexivity]. destruct (dec (sort1 nominal x (a x))) as [Q|Q]; [exact Q|]. exfalso. apply K. exists x. auto. }
    assert (Ag : forall (e : tr), gev e -> Forall (lit_in (vars s)) (lits e) -> (holds e a <-> holds e a')).
    { intros e Ge Le. unfold holds. rewrite (teval_agree e a a'); [tauto|apply Ge|]. intros x Hx. apply (in_symbols nominal _ _ Le) in Hx. unfold a'. destruct (dec (vars s x)); tauto. }
    rewrite (Ag d), (Ag d') by auto. now apply Cmp.
  Qed.

  Lemma solved_given : forall s (v : pset N) t F, wf_leaf s -> typed s -> wf v -> (atomic s -> real_set v) -> leaf_solved_condition io s v = Ok t ->
    (forall w, leaf_den_law dlaw s (ind (fun u => ~ (fm u v <-> F (leaf_place s w u)))) = 0) -> cond_ok s F t.
  Proof.
    intros s v t F W T Wv Rv H Z. pose proof (leaf_law_law dlaw s W) as L. destruct (solved_condition_ok io dlaw s v t W Wv Rv H) as (Wt & Vt & Pt & Dt).
    split; auto. split; auto. split; [apply (solved_condition_typed io nominal envof s v); auto; now apply every_here in T|].
    assert (Eh : forall w g, bnd g -> leaf_den_law dlaw s (fun u => g u * ind (fun u => fm u v) u) = leaf_den_law dlaw s (fun u => g u * ind F (leaf_place s w u))).
    { intros w g Bg. apply (law_as L _ _ _ (Z w)); auto with bnd. intros u Hu. f_equal. apply ind_eq. tauto. }
    assert (E1 : forall w, den s (ind F) w = leaf_den_law dlaw s (ind (fun u => fm u v))).
    { intros w. rewrite den_leaf by (now apply (wf_leaf_leaf dlaw)). pose proof (Eh w (fun _ => 1) (bnd_const _ 1)) as K. cbv beta in K.
      rewrite (law_ext (I:=leaf_den_law dlaw s) (fun u => 1 * ind F (leaf_place s w u)) (fun v => ind F (leaf_place s w v))) in K by (intro; ring).
      rewrite <- K. apply (law_ext (I:=leaf_den_law dlaw s)). intro; ring. }
    split; [intros w; now rewrite E1|]. intros f Sf w. pose proof (simple_bnd f Sf) as Bf. rewrite E1, Dt by auto. rewrite den_leaf by (now apply (wf_leaf_leaf dlaw)). apply Eh. auto with bnd.
  Qed.

  Theorem condition_ok : forall s (e : tr), U s -> wf_spe s -> typed s -> gev e -> surely s (regular true e) -> event_sorts nominal e -> (forall x, In x (symbols e) -> vars s x) ->
    sat valid (condition io so po fuel ident hash s e) (cond_ok s (holds e)).
  Proof.
    intros s e Us W T G Rg Se Sy. pose proof (typed_atoms nominal envof s T) as A. assert (Ke : event_kinds nominal e) by (eapply Forall_impl; [|exact Se]; apply sort_kind).
    unfold condition. destruct (is_leaf s) eqn:Il.
    - assert (Wl : wf_leaf s) by (apply wf_leaf_spe; auto). pose proof (leaf_law_law dlaw s Wl) as Lw.
      set (K := fun e' : tr => gev e' /\ only (leaf_var s) e' /\ (atomic s -> num_event e') /\
         forall w, leaf_den_law dlaw s (ind (fun v => ~ (regular true e' (leaf_place s w v) /\ (holds e' (leaf_place s w v) <-> holds e (leaf_place s w v))))) = 0).
      apply sat_bind with (P := K).
      + apply sat_lift. intros e' H. assert (Na : atomic s -> num_event e).
        { intros At. destruct s as [| x a env| | |]; try contradiction. cbn [LogprobProofs.atoms_ok] in A. unfold event_kinds, num_event in *. rewrite Forall_forall in *. intros l Hl.
          destruct (Ke l Hl) as [K1|K1]; auto. exfalso. destruct (symbols_some l) as (y & Hy); [pose proof (gev_lits _ G) as Gl; rewrite Forall_forall in Gl; apply (Gl l Hl)|].
          specialize (K1 y Hy). rewrite A in K1; [discriminate|]. apply Sy. apply symbols_lits. eauto. }
        destruct (leaf_event_ok io po fuel dlaw s e e' Wl G Rg Na H) as (H1 & H2 & H3 & _ & H4). exact (conj H1 (conj H2 (conj H3 H4))).
      + intros e' (Ge & On & Ne & Z).
        assert (Zs : forall w, den s (ind (fun a => ~ (factor_holds [[(fst (leaf_env s), e')]] a <-> holds e a))) w = 0).
        { intros w. rewrite den_leaf by (now apply (wf_leaf_leaf dlaw)). refine (law_null_sub Lw _ _ (Z w) _). intros v Hv. rewrite single_holds in Hv. tauto. }
        apply sat_weaken with (P := cond_ok s (factor_holds [[(fst (leaf_env s), e')]])).
        * apply (memo_condition_ok dlaw ident nominal envof U Uc); auto. apply sat_lift. intros t H. inv_bind H.
          destruct (solve_ok io po fuel _ _ _ true (proj1 Ge) On (proj2 Ge) E) as (Wv & Sv).
          assert (Rl : atomic s -> real_set r) by (intros At; apply (solve_real io po fuel (leaf_var s) e'); auto).
          assert (Zf : forall w, leaf_den_law dlaw s (ind (fun u => ~ (fm u r <-> holds e (leaf_place s w u)))) = 0) by (intros w; apply (leaf_as io po fuel dlaw s e e' r w); auto).
          assert (Zr : forall w, leaf_den_law dlaw s (ind (fun u => ~ (fm u r <-> factor_holds [[(fst (leaf_env s), e')]] (leaf_place s w u)))) = 0).
          { intros w. refine (law_null_sub Lw _ _ (law_null_or Lw _ _ (Zf w) (Z w)) _). intros u Hu. rewrite single_holds in Hu.
            destruct (dec (fm u r <-> holds e (leaf_place s w u))); destruct (dec (holds e' (leaf_place s w u) <-> holds e (leaf_place s w u))); tauto. }
          now apply (solved_given s r).
        * intros t Ht. now apply (cond_ok_as s (factor_holds [[(fst (leaf_env s), e')]])).
    - apply sat_bind with (P := fun o => dnf_normalize io po fuel e = Ok o); [apply sat_lift; auto|]. intros [d|] Hn; [|apply sat_lift; discriminate].
      destruct (dnf_normalize_ok io po fuel e _ G Hn) as (Gd & Dd & _ & Hd).
      pose proof (in_weaken nominal _ (vars s) d Sy (normalize_kinds io po fuel nominal e d G Ke Hn)) as Lk. pose proof (normalize_sorts io po fuel nominal e d G Se Hn) as Sd.
      eapply sat_bind; [exact (nonzero_ok s d Us W T Gd Dd Lk Sd)|]. intros d1 (G1 & D1 & L1 & S1 & Z1).
      apply sat_bind with (P := fun d => disjoint_union io po fuel fuel d1 = Ok d); [apply sat_lift; auto|]. intros d2 H2.
      apply sat_bind with (P := fun f => dnf_factor io d2 = Ok f); [apply sat_lift; auto|]. intros f Hf.
      destruct (disjoint_union_ok io po fuel nominal fuel d1 d2 G1 D1 (lit_in_on_vars nominal _ _ L1) H2) as ((G2 & _ & D2 & Dj) & _). pose proof (union_in io po fuel nominal (vars s) fuel d1 d2 G1 D1 L1 H2) as L2.
      pose proof (union_null s d1 d2 W T G1 D1 L1 S1 H2) as Z2.
      destruct (factor_good io nominal (vars s) d2 f G2 L2 Hf) as (Gf & Ff & _ & Fc).
      eapply sat_weaken; [apply condition_mem_ok; auto|].
      + clear -Fc Dj. unfold disjoint_clauses in Dj. unfold disjoint. induction Fc as [|a c la lc H F IH]; [constructor|]. inversion Dj as [|? ? Na Dj']; subst. constructor; auto.
        clear -H F Na. induction F as [|b c' la lc H' F IH]; constructor; inversion Na as [|? ? Nb Na']; subst; auto. intros w K1 K2. apply (Nb w). split; [now apply H|now apply H'].
      + intros t Ht. apply (cond_ok_as s (factor_holds f)); auto. intros w.
        apply (law_null_sub (den_kernel dlaw s W w) (fun a => ~ regular true e a \/ (~ (holds d1 a <-> holds d a) \/ ~ (holds d2 a <-> holds d1 a)))).
        * apply (law_null_or (den_kernel dlaw s W w)); [apply Rg|]. now apply (law_null_or (den_kernel dlaw s W w)).
        * intros a Ha. rewrite Ff in Ha. destruct (dec (regular true e a)) as [R|R]; [|auto]. right. pose proof (Hd a true R) as Hd'.
          destruct (dec (holds d1 a <-> holds d a)); destruct (dec (holds d2 a <-> holds d1 a)); tauto.
  Qed.
End Top.
