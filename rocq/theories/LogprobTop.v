(** logprob on events. *)
From Coq Require Import List Bool String Reals Lra Lia ZArith QArith Qreals FunctionalExtensionality Permutation.
From Verif Require Import Base Num Sets SetSpec SetIv SetProofs SetOr SetOps SetAlg SetBuilt
  Poly Trans TransSpec TransFacts PolyProofs InvProofs InvMain EvProofs ArithProofs
  Dnf DnfSpec DnfProofs DnfUnion Logs Spe SpeSpec SpeFacts SpeRect LeafProofs LeafEvents LeafCond SpeCons LeafGiven MemoProofs NormSorts LogprobProofs.
Import ListNotations.
Local Open Scope R_scope.

Section Top.
  Context {N : numsys} {S : logsys} {D : distsys N S} (io : iterorder N) (po : polyoracle N) (fuel : nat).
  Context (dlaw : dist D -> (fval -> R) -> R) (ident : spe D -> nat) (nominal : string -> bool).
  Notation spe := (spe D).
  Notation tr := (tr N).
  Notation den := (den dlaw).
  Notation wf_spe := (wf_spe dlaw).
  Notation surely := (surely dlaw).
  Notation wf_leaf := (wf_leaf dlaw).
  Notation good_factor := (good_factor (N:=N) nominal).
  Context (U : spe -> Prop) (Uc : closed ident U).
  Context (C1 : list ((nat * factor (N:=N)) * spe) -> Prop) (C2 : list ((nat * assignment (N:=N)) * (nat * lg S)) -> Prop) (C3 : list ((nat * assignment (N:=N)) * spe) -> Prop).
  Notation valid := (valid dlaw ident U C1 C2 C3).
  Notation atoms_ok := (atoms_ok nominal).

  (** the factors of a normal form *)
  Lemma factor_good : forall (P : string -> Prop) d f, gev d -> Forall (lit_in nominal P) (lits d) -> dnf_factor io d = Ok f ->
    good_factor f /\ (forall w, factor_holds f w <-> holds d w) /\ Forall (fun c => c <> []) f /\
      Forall2 (fun a c => forall w, clause_holds c w <-> holds a w) (clauses d) f.
  Proof.
    intros P d f G L H. unfold dnf_factor in H. fold (self d) in H.
    set (R := fun l : tr => exists x, lit_kind nominal x l).
    assert (Mg : mergeable io (fun key e => keyed (self d) key e /\ R e)).
    { apply keyed_merge. intros k s v j t u r x (x1 & L1) (x2 & L2) G1 G2 Et Hp Ex. exists x1. apply (lit_kind_merge io nominal x1 k s v j t u r); auto.
      destruct L1 as (k1 & v1 & H1 & N1), L2 as (k2 & v2 & H2 & N2). injection H1 as -> -> ->. injection H2 as -> -> ->. cbn in Et. apply String.eqb_eq in Et. subst x2. exists k2, v2. auto. }
    assert (LR : Forall R (lits d)) by (eapply Forall_impl; [|exact L]; intros l (_ & x & _ & K); exists x; exact K).
    pose proof (dnf_factor_with_ok io (self d) R d f Mg G LR H) as T. split; [|split; [|split]].
    - apply Forall_forall. intros c Hc. destruct (Forall2_in_r _ _ _ _ _ _ T Hc) as (a & _ & (Fc & Nd) & _). split; auto.
      eapply Forall_impl; [|exact Fc]. intros p (Gp & Lp). split; auto. eapply Forall_impl; [|exact Lp]. intros l (Kl & x & k & v & -> & Hk).
      assert (E : fst p = x). { symmetry. apply (keyed_only d (fst p) _ Kl x). now left. } rewrite E. exists k, v. auto.
    - intros w. rewrite (holds_clauses d). unfold factor_holds. symmetry. apply (Forall2_ex _ _ (fun c => clause_holds c w) (fun a => holds a w)).
      clear -T. induction T as [|a c la lc (_ & K & _) T IH]; constructor; auto. symmetry. apply K.
    - apply Forall_forall. intros c Hc. now destruct (Forall2_in_r _ _ _ _ _ _ T Hc) as (a & _ & _ & _ & K).
    - clear -T. induction T as [|a c la lc (_ & K & _) T IH]; constructor; auto.
  Qed.

  (** the events of normal form mean the same, almost surely *)
  Lemma den_regular : forall s (e : tr) P w, wf_spe s -> surely s (regular true e) -> (forall a, regular true e a -> (P a <-> holds e a)) ->
    den s (ind P) w = den s (ind (holds e)) w.
  Proof.
    intros s e P w W Rg H. apply (den_as dlaw s (fun a => ~ regular true e a)); auto with bnd. intros a Ha. apply ind_eq.
    destruct (dec (regular true e a)) as [K|K]; [now apply H|tauto].
  Qed.

  Lemma single_holds : forall x (e : tr) w, factor_holds [[(x, e)]] w <-> holds e w.
  Proof.
    intros x e w. unfold factor_holds, clause_holds. split.
    - intros (c & [<-|[]] & K). apply (K x). now left.
    - intros K. exists [(x, e)]. split; [now left|]. intros k y [E|[]]. now injection E as <- <-.
  Qed.

  Theorem logprob_ok : forall s (e : tr), U s -> wf_spe s -> atoms_ok s -> gev e -> surely s (regular true e) -> event_kinds nominal e ->
    sat valid (logprob io po fuel ident s e) (fun p => forall w, toP p = den s (ind (holds e)) w).
  Proof.
    intros s e Us W A G Rg Ke. unfold logprob. destruct (is_leaf s) eqn:Il.
    - assert (Wl : wf_leaf s) by (apply wf_leaf_spe; auto).
      set (K := fun e' : tr => gev e' /\ only (leaf_var s) e' /\ (atomic s -> num_event e') /\
         forall w, leaf_den_law dlaw s (ind (fun v => ~ (regular true e' (leaf_place s w v) /\ (holds e' (leaf_place s w v) <-> holds e (leaf_place s w v))))) = 0).
      apply sat_bind with (P := K).
      + apply sat_lift. intros e' H. assert (Na : atomic s -> num_event e).
        { intros At. destruct s as [| x a env| | |]; try contradiction. cbn [LogprobProofs.atoms_ok] in A. unfold event_kinds, num_event in *. rewrite Forall_forall in *. intros l Hl.
          destruct (Ke l Hl) as [K1|K1]; auto. exfalso. destruct (symbols_some l) as (y & Hy); [pose proof (gev_lits _ G) as Gl; rewrite Forall_forall in Gl; apply (Gl l Hl)|].
          specialize (K1 y Hy). rewrite A in K1; [discriminate|]. unfold leaf_event in H. inv_bind H. inv_bind H. unfold passert in E0. cbn [leaf_env snd fst] in E0.
          destruct (forallb _ (symbols e)) eqn:Ef; [|discriminate]. rewrite forallb_forall in Ef. apply inb_string, Ef. apply symbols_lits. eauto. }
        destruct (leaf_event_ok io po fuel dlaw s e e' Wl G Rg Na H) as (H1 & H2 & H3 & _ & H4). exact (conj H1 (conj H2 (conj H3 H4))).
      + intros e' (Ge & On & Ne & Z). pose proof (leaf_law_law dlaw s Wl) as L.
        apply sat_weaken with (P := prob_ok dlaw s [[(fst (leaf_env s), e')]]).
        * apply memo_logprob_ok; auto. apply sat_lift. intros p H w. inv_bind H.
          destruct (solve_ok io po fuel _ _ _ true (proj1 Ge) On (proj2 Ge) E) as (Wv & Sv).
          assert (Z' : leaf_den_law dlaw s (ind (fun u => ~ (fm u r <-> holds e (leaf_place s w u)))) = 0) by (apply (leaf_as io po fuel dlaw s e e' r w); auto).
          rewrite den_leaf by (now apply (wf_leaf_leaf dlaw)). rewrite (solved_logprob_ok io dlaw s r p Wl Wv); auto.
          -- refine (law_as L _ _ _ (law_null_or L _ _ Z' (Z w)) _ _ _); auto with bnd. intros u Hu. apply ind_eq. rewrite (single_holds (fst (leaf_env s)) e').
             destruct (dec (fm u r <-> holds e (leaf_place s w u))); destruct (dec (holds e' (leaf_place s w u) <-> holds e (leaf_place s w u))); tauto.
          -- intros At. apply (solve_real io po fuel (leaf_var s) e'); auto.
        * intros p Hp w. rewrite (Hp w), !den_leaf by (now apply (wf_leaf_leaf dlaw)). refine (law_as L _ _ _ (Z w) _ _ _); auto with bnd.
          intros u Hu. apply ind_eq. rewrite (single_holds (fst (leaf_env s)) e'). destruct (dec (holds e' (leaf_place s w u) <-> holds e (leaf_place s w u))); tauto.
    - apply sat_bind with (P := fun o => dnf_normalize io po fuel e = Ok o); [apply sat_lift; auto|]. intros [d|] Hn; pose proof (dnf_normalize_ok io po fuel e _ G Hn) as Nk.
      + destruct Nk as (Gd & _ & _ & Hd). pose proof (normalize_kinds io po fuel nominal e d G Ke Hn) as Lk.
        apply sat_bind with (P := fun f => dnf_factor io d = Ok f); [apply sat_lift; auto|]. intros f Hf. destruct (factor_good _ d f Gd Lk Hf) as (Gf & Ff & _).
        eapply sat_weaken; [apply logprob_mem_ok with (nominal := nominal); auto|]. intros p Hp w. rewrite (Hp w).
        apply den_regular; auto. intros a Ra. rewrite Ff. now apply (Hd a true).
      + apply sat_ret. intros w. rewrite lninf_ok. rewrite <- (den_regular s e (fun _ => False) w W Rg).
        * symmetry. rewrite (law_ext (I:=fun g => den s g w) _ (fun _ => 0)); [apply (law_const (den_kernel dlaw s W w))|]. intros a. apply ind_false. tauto.
        * intros a Ra. split; [tauto|]. exact (Nk a true Ra).
  Qed.
End Top.
