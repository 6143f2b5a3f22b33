(** Properties C30 and C38 for mutual_information with a memo table of the caller. *)
From Coq Require Import List Bool String Reals Lra Lia ZArith FunctionalExtensionality.
From Verif Require Import Base Num Sets SetSpec SetIv SetProofs SetOr SetOps SetAlg SetBuilt
  Poly Trans TransSpec TransFacts PolyProofs InvProofs InvMain EvProofs ArithProofs
  Dnf DnfSpec DnfProofs DnfUnion Logs Spe SpeSpec SpeFacts SpeRect LeafProofs LeafEvents LeafCond SpeCons LeafGiven MemoProofs NormSorts LogprobProofs LogprobTop SpeEq SimplifyProofs
  CondTypes CondProofs CondTop SpeOps PropSpe DensSpec DensProofs ConstrainProofs PropDens Prog ProgSpec ProgEvents MISpec PropMI MIMemo.
Import ListNotations.
Local Open Scope R_scope.

Section Properties.
  Context {N : numsys} {S : logsys} {D : distsys N S} (io : iterorder N) (so : strorder) (po : polyoracle N) (fuel : nat).
  Context (dlaw : dist D -> (fval -> R) -> R) (ident : spe D -> nat) (nominal : string -> bool).
  Notation spe := (spe D).
  Notation tr := (tr N).
  Notation wf_spe := (wf_spe dlaw).
  Notation chance := (chance dlaw).
  Notation information := (information dlaw).
  Notation logprob := (logprob io po fuel ident).
  Notation stands := (stands nominal).
  Notation decided := (decided dlaw nominal).

  (** without a table of the caller it is the function of SpeOps.v *)
  Lemma mi_memo_fresh : forall s a b, fst (mutual_information_memo io po fuel ident s a b Memo) = mutual_information io po fuel ident s a b.
  Proof.
    intros s a b. unfold mutual_information_memo, mutual_information, mi_single. unfold mbind at 1, lift at 1.
    destruct (fresh_run (logprob s a)) as [lA|x]; [|reflexivity]. cbn [bind]. destruct (fresh_run (logprob s b)) as [lB|x]; [|reflexivity].
    cbn [bind]. destruct (ldiff lzero lA) as [lA0|x]; [|reflexivity]. cbn [bind]. destruct (ldiff lzero lB) as [lB0|x]; reflexivity.
  Qed.

  Section Table.
    Context (U : spe -> Prop) (Uc : closed ident U).
    Context (C1 : list ((nat * factor (N:=N)) * spe) -> Prop) (C2 : list ((nat * assignment (N:=N)) * (nat * lg S)) -> Prop) (C3 : list ((nat * assignment (N:=N)) * spe) -> Prop).
    Notation V := (valid dlaw ident U C1 C2 C3).
    Context (V0 : V Memo).
    Lemma mi_memo_ok : forall s a b, U s -> wf_spe s -> atoms_ok nominal s -> decided s a -> decided s b ->
      sat V (mutual_information_memo io po fuel ident s a b) (fun r => r = information s (holds a) (holds b)).
    Proof.
      intros s a b Us W At Da Db.
      pose proof (stands_pos dlaw ident nominal s a b Da Db a (or_introl eq_refl)) as Sa. pose proof (stands_pos dlaw ident nominal s a b Da Db b (or_intror eq_refl)) as Sb.
      assert (Run : forall e P, stands a b P e -> sat V (logprob s e) (fun p => toP p = chance s P)).
      { intros e P Se t Ht. pose proof (stands_askable dlaw nominal s W a b Da Db P e Se) as (G & Rg & Ke).
        destruct (logprob_ok io po fuel dlaw ident nominal U Uc C1 C2 C3 s e Us W At G Rg Ke t Ht) as (K1 & K2).
        split; auto. intros p Hp. rewrite (K2 p Hp w0). exact (stands_prob dlaw ident nominal s W a b Da Db P e Se). }
      apply sat_bind with (P := fun q => let '(lA, lB, lA0, lB0) := q in toP lA = chance s (holds a) /\ toP lB = chance s (holds b) /\ toP lA0 = chance s (fun w => ~ holds a w) /\ toP lB0 = chance s (fun w => ~ holds b w)).
      { apply sat_lift. intros q H. unfold mi_single in H. inv_bind H. inv_bind H. rename r into lA, r0 into lB. unfold fresh_run in E, E0.
        apply (proj2 (Run a _ Sa Memo V0)) in E. apply (proj2 (Run b _ Sb Memo V0)) in E0.
        inv_bind H. inv_bind H. rename r into lA0, r0 into lB0. injection H as <-.
        pose proof (chance_01 dlaw s W (holds a)) as Ba. pose proof (chance_01 dlaw s W (holds b)) as Bb.
        apply ldiff_sum in E1; [|rewrite lzero_ok, E; lra]. apply ldiff_sum in E2; [|rewrite lzero_ok, E0; lra]. rewrite lzero_ok, E in E1. rewrite lzero_ok, E0 in E2.
        rewrite <- (chance_not dlaw ident) in E1, E2 by auto. auto. }
      intros (((lA, lB), lA0), lB0) (E & E0 & E1 & E2). unfold mi_joint.
      apply sat_bind with (P := fun p => toP p = chance s (fun w => holds a w /\ holds b w)).
      { apply sat_bind with (P := stands a b (fun w => holds a w /\ holds b w)); [|intros e; apply Run]. apply sat_lift. intros e He. eapply (stands_and io ident nominal s); eauto. }
      intros p11 H11. apply sat_bind with (P := fun p => toP p = chance s (fun w => holds a w /\ ~ holds b w)).
      { apply sat_bind with (P := stands a b (fun w => holds a w /\ ~ holds b w)); [|intros e; apply Run]. apply sat_lift. intros e He. inv_bind He. eapply (stands_and io ident nominal s); eauto. apply (stands_not io dlaw nominal s a b Da Db b); auto. }
      intros p10 H10. apply sat_bind with (P := fun p => toP p = chance s (fun w => ~ holds a w /\ holds b w)).
      { apply sat_bind with (P := stands a b (fun w => ~ holds a w /\ holds b w)); [|intros e; apply Run]. apply sat_lift. intros e He. inv_bind He. eapply (stands_and io ident nominal s); eauto. apply (stands_not io dlaw nominal s a b Da Db a); auto. }
      intros p01 H01. apply sat_lift. intros r H. inv_bind H. inv_bind H. rename r0 into t, r1 into p00. injection H as <-.
      apply lse_sum in E3. destruct E3 as (_ & E3). cbn [map sumR fold_right] in E3. rewrite H11, H10, H01 in E3.
      pose proof (table_facts dlaw ident s W (holds a) (holds b)) as (T1 & T2 & T3). cbv zeta in T1, T2, T3.
      pose proof (chance_01 dlaw s W (fun w => ~ holds a w /\ ~ holds b w)) as B00. apply ldiff_sum in E4; [|rewrite lzero_ok, E3, T1, T2; lra].
      assert (H00 : toP p00 = chance s (fun w => ~ holds a w /\ ~ holds b w)) by (rewrite E4, lzero_ok, E3, T1, T2, T3; ring).
      clear E3 E4.
      assert (T : forall (p x y : lg S) q P Q, toP p = q -> toP x = chance s P -> toP y = chance s Q -> q = chance s (fun w => P w /\ Q w) -> mi_term p x y = cell q (chance s P) (chance s Q)).
      { intros p x y q P Q Hp Hx Hy Hq. unfold mi_term, cell. destruct (lisninf p) eqn:Z.
        - apply lisninf_ok in Z. rewrite Hp in Z. destruct (dec (q = 0)); tauto.
        - apply lisninf_no in Z. destruct (dec (q = 0)) as [|Nq]; [rewrite Hp in Z; lra|]. rewrite Hp, Hx, Hy.
          pose proof (chance_split dlaw ident s W P Q) as K1. pose proof (chance_split dlaw ident s W Q P) as K2. rewrite (chance_swap dlaw ident s Q P) in K2. pose proof (chance_01 dlaw s W (fun w => P w /\ ~ Q w)). pose proof (chance_01 dlaw s W (fun w => Q w /\ ~ P w)).
          rewrite Hp in Z. unfold Rdiv. assert (0 < chance s P) by lra. assert (0 < chance s Q) by lra. rewrite <- (ln_mult (chance s P)) by auto. pose proof (Rmult_lt_0_compat (chance s P) (chance s Q) ltac:(auto) ltac:(auto)).
          rewrite (ln_mult q) by (auto using Rinv_0_lt_compat). rewrite ln_Rinv by auto. ring. }
      unfold MISpec.information. cbv zeta. cbv beta.
      rewrite (T p11 lA lB _ (holds a) (holds b) H11 E E0 eq_refl), (T p10 lA lB0 _ (holds a) (fun w => ~ holds b w) H10 E E2 eq_refl), (T p01 lA0 lB _ (fun w => ~ holds a w) (holds b) H01 E1 E0 eq_refl), (T p00 lA0 lB0 _ (fun w => ~ holds a w) (fun w => ~ holds b w) H00 E1 E2 eq_refl).
      reflexivity.
    Qed.
  End Table.

  (** ** After any history of queries through the table *)
  Section History.
    Context (Ed : eq_dist dlaw) (dpdf : dist D -> R -> R) (pdf : pdf_ok (S:=S) dpdf) (hash : spe -> Z) (envof : string -> tenv (N:=N)).
    Context (U : spe -> Prop) (Uc : closed ident U).
    Notation V := (valid dlaw ident U (Forall (centry_ok dlaw ident nominal envof U)) (Forall (pdf_entry dlaw dpdf ident U)) (Forall (cons_entry dlaw dpdf ident U))).
    Notation fine := (fine dlaw nominal envof U).
    Notation table := (table io so po fuel ident hash).
    Notation mi s a b := (mutual_information_memo io po fuel ident s a b).
    Lemma history_mi : forall h s a b, Forall fine h -> U s -> wf_spe s -> atoms_ok nominal s -> decided s a -> decided s b ->
      V (snd (mi s a b (table h))) /\ forall r, fst (mi s a b (table h)) = Ok r -> r = information s (holds a) (holds b).
    Proof.
      intros h s a b F Us W A Da Db. apply (mi_memo_ok U Uc); auto; [repeat split; constructor|].
      exact (table_v io so po fuel dlaw Ed dpdf pdf ident hash nominal envof U Uc h F).
    Qed.
    (** the value does not depend on the history *)
    Theorem C30_information : forall h s a b r, Forall fine h -> U s -> wf_spe s -> atoms_ok nominal s -> decided s a -> decided s b ->
      fst (mi s a b (table h)) = Ok r -> r = information s (holds a) (holds b).
    Proof. intros h s a b r F Us W A Da Db. now apply history_mi. Qed.
    (** and the question leaves a table in which later answers are right *)
    Theorem C30_information_logprob : forall h s a b s' e p, Forall fine h -> U s -> wf_spe s -> atoms_ok nominal s -> decided s a -> decided s b ->
      U s' -> wf_spe s' -> atoms_ok nominal s' -> askable dlaw nominal s' e -> fst (logprob s' e (snd (mi s a b (table h)))) = Ok p -> toP p = prob dlaw s' e.
    Proof.
      intros h s a b s' e p F Us W A Da Db Us' W' A' Ae H. destruct (history_mi h s a b F Us W A Da Db) as (Vm & _).
      exact (proj2 (logprob_v io po fuel dlaw dpdf ident nominal envof U Uc s' e _ Us' W' A' Ae Vm) p H).
    Qed.
    Theorem C30_information_condition : forall h s a b s' e t, Forall fine h -> U s -> wf_spe s -> atoms_ok nominal s -> decided s a -> decided s b ->
      U s' -> wf_spe s' -> typed nominal envof s' -> conditionable dlaw nominal s' e -> fst (condition io so po fuel ident hash s' e (snd (mi s a b (table h)))) = Ok t ->
      wf_spe t /\ (forall x, vars t x <-> vars s' x) /\ given dlaw s' (holds e) t.
    Proof.
      intros h s a b s' e t F Us W A Da Db Us' W' T' Ce H. destruct (history_mi h s a b F Us W A Da Db) as (Vm & _).
      destruct (proj2 (condition_v io so po fuel dlaw Ed dpdf ident hash nominal envof U Uc s' e _ Us' W' T' Ce Vm) t H) as (Wt & Vt & _ & _ & G). auto.
    Qed.
  End History.
End Properties.
