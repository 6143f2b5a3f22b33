(** Properties C36 and C37: when logpdf and constrain give a result.  The specification is in
    SpeSpec.v and DensSpec.v; [answered] (DensTotal.v) says that no atomic leaf is assigned, and no
    string of weight zero. *)
From Coq Require Import List Bool String Reals Lra Lia ZArith QArith Qreals Permutation.
From Verif Require Import Base Num Sets SetSpec SetIv SetProofs SetOr SetOps SetAlg SetBuilt
  Poly Trans TransSpec TransFacts PolyProofs InvProofs InvMain EvProofs ArithProofs
  Dnf DnfSpec DnfProofs DnfUnion Logs Spe SpeSpec SpeFacts SpeRect LeafProofs LeafEvents LeafCond SpeCons LeafGiven MemoProofs NormSorts LogprobProofs LogprobTop SpeEq SimplifyProofs CondTypes CondProofs CondTop
  SpeOps PropSpe DensSpec DensProofs ConstrainProofs PropDens TotalProofs DensTotal.
Import ListNotations.
Local Open Scope R_scope.

Section Returns.
  Context {N : numsys} {S : logsys} {D : distsys N S} (io : iterorder N) (so : strorder) (po : polyoracle N) (fuel : nat).
  Context (dlaw : dist D -> (fval -> R) -> R) (Ed : eq_dist dlaw).
  Context (dpdf : dist D -> R -> R) (pdf : pdf_ok (S:=S) dpdf).
  Context (ident : spe D -> nat) (hash : spe D -> Z).
  Context (nominal : string -> bool) (envof : string -> tenv (N:=N)).
  Notation spe := (spe D).
  Notation assignment := (assignment (N:=N)).
  Notation wf_spe := (wf_spe dlaw).
  Notation density := (density dlaw dpdf).
  Notation logpdf := (SpeOps.logpdf ident).
  Notation constrain := (constrain so ident).
  Notation distinct := (distinct (D:=D) ident).
  Notation fine := (fine dlaw nominal envof).
  Notation table := (table io so po fuel ident hash).
  Notation V U := (valid dlaw ident U (Forall (centry_ok dlaw ident nominal envof U)) (Forall (pdf_entry dlaw dpdf ident U)) (Forall (cons_entry dlaw dpdf ident U))).

  (** the assignments whose density can be asked for *)
  Definition answerable (s : spe) (a : assignment) : Prop :=
    dictionary a /\ a <> [] /\ asked s (values_of a) /\ every (answered (values_of a)) s.
  Lemma logpdf_answers : forall U s a m, closed ident U -> U s -> wf_spe s -> answerable s a -> V U m -> exists p, fst (logpdf s a m) = Ok p /\ toP p = snd (density s (values_of a)).
  Proof.
    intros U s a m Uc Us W (Da & Na & As & An) Vm. destruct (logpdf_mem_safe dlaw dpdf ident pdf U Uc (V U) (vget dlaw dpdf ident nominal envof U) (vset dlaw dpdf ident nominal envof U) s a Us W (proj2 Da) Na As An m Vm) as (r & Er).
    assert (E : fst (logpdf s a m) = Ok (snd r)). { unfold SpeOps.logpdf, mbind. destruct (logpdf_mem ident s a m) as [r' m']. cbn [fst] in Er. subst r'. reflexivity. }
    exists (snd r). split; auto. apply (logpdf_v dlaw dpdf pdf ident nominal envof U Uc s a m Us W Da Vm). exact E.
  Qed.
  (** ** C36 *)
  Theorem C36_returns_partial : forall s a, wf_spe s -> distinct s -> answerable s a -> exists p, fresh (logpdf s a) = Ok p /\ toP p = snd (density s (values_of a)).
  Proof. intros s a W Ds An. exact (logpdf_answers (within s) s a Memo (within_closed ident s Ds) (within_self s) W An (fresh_table dlaw dpdf ident nominal envof _)). Qed.
  (** on no other assignments *)
  Theorem C36_exactly_partial : forall s a, wf_spe s -> distinct s -> dictionary a -> ((exists p, fresh (logpdf s a) = Ok p) <-> answerable s a).
  Proof.
    clear Ed hash so. intros s a W Ds Da. split.
    - intros (p & Hp). destruct (fresh_logpdf dlaw dpdf pdf ident nominal envof s a p W Ds Da Hp) as (As & _).
      destruct (logpdf_mem_only dlaw ident (within s) (within_closed ident s Ds) s a (within_self s) W Memo) as (_ & K); [constructor|].
      unfold fresh, SpeOps.logpdf, mbind in Hp. destruct (logpdf_mem ident s a Memo) as [[r|e] m]; [|discriminate]. destruct (K r eq_refl) as (K1 & K2). repeat split; auto; apply Da.
    - intros An. destruct (C36_returns_partial s a W Ds An) as (p & Hp & _). eauto.
  Qed.
  (** after any history of queries *)
  Theorem C36_after_partial : forall U h s a, closed ident U -> Forall (fine U) h -> U s -> wf_spe s -> answerable s a ->
    exists p, fst (logpdf s a (table h)) = Ok p /\ toP p = snd (density s (values_of a)).
  Proof. intros U h s a Uc F Us W An. apply (logpdf_answers U); auto. now apply table_v. Qed.

  (** ** C37 *)
  Definition fixable (s : spe) (a : assignment) : Prop := answerable s a /\ constrainable s a /\ every (plain_at (values_of a)) s.
  Lemma constrain_answers : forall U s a m, closed ident U -> U s -> wf_spe s -> fixable s a -> 0 < snd (density s (values_of a)) -> V U m -> exists t, fst (constrain s a m) = Ok t.
  Proof.
    intros U s a m Uc Us W ((Da & Na & As & An) & (Hv & (Nd & Fa) & Ks) & Pl) Pos Vm.
    refine (constrain_mem_safe dlaw dpdf ident pdf U Uc so (V U) (vget dlaw dpdf ident nominal envof U) (vset dlaw dpdf ident nominal envof U) (vget' dlaw dpdf ident nominal envof U) (vset' dlaw dpdf ident nominal envof U) s a Us W Hv Fa Nd _ Na As An Pl Pos m Vm).
    intros p Hp. apply Ks. rewrite <- values_keys. now apply in_map.
  Qed.
  (** constrain returns exactly if the density is not zero *)
  Theorem C37_exactly_partial : forall s a, wf_spe s -> distinct s -> fixable s a -> ((exists t, fresh (constrain s a) = Ok t) <-> 0 < snd (density s (values_of a))).
  Proof.
    intros s a W Ds Fx. split.
    - intros (t & Ht). apply (C37_positive so dlaw dpdf pdf ident nominal envof s a t W Ds); auto. apply Fx.
    - intros Pos. exact (constrain_answers (within s) s a Memo (within_closed ident s Ds) (within_self s) W Fx Pos (fresh_table dlaw dpdf ident nominal envof _)).
  Qed.
  Theorem C37_after_partial : forall U h s a, closed ident U -> Forall (fine U) h -> U s -> wf_spe s -> fixable s a -> 0 < snd (density s (values_of a)) ->
    exists t, fst (constrain s a (table h)) = Ok t /\ wf_spe t /\ forall f w, den dlaw t f w = fixed dlaw dpdf s (values_of a) f w.
  Proof.
    intros U h s a Uc F Us W Fx Pos. destruct (constrain_answers U s a (table h) Uc Us W Fx Pos) as (t & Ht); [now apply table_v|]. exists t. split; auto.
    apply (C30_all_constrain io so po fuel dlaw Ed dpdf pdf ident hash nominal envof U Uc h s a t); auto. apply Fx.
  Qed.
End Returns.
