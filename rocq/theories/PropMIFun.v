(** Property C38, continued: mutual information of comparisons of functions of two variables can
    always be computed (src/spe.py:87-103). *)
From Coq Require Import List Bool String Reals Lra Lia ZArith QArith Qreals PeanoNat.
From Verif Require Import Base Num Sets SetSpec SetIv SetProofs SetOr SetOps SetAlg SetBuilt
  Poly Trans TransSpec TransFacts PolyProofs InvProofs InvMain EvProofs ArithProofs
  Dnf DnfSpec DnfProofs DnfUnion PropDnf Logs Spe SpeSpec SpeFacts SpeRect LeafProofs LeafEvents LeafCond SpeCons LeafGiven MemoProofs
  NormSorts LogprobProofs LogprobTop SpeEq SimplifyProofs CondTypes CondProofs CondTop PropSpe SpeOps OpsProofs BuildProofs TransformProofs PropCons Prog ProgSpec ProgEvents ProgProofs PropProg MISpec PropMI
  TotalSpec TotalSets TotalSolve TotalProofs PropTotal SolveSpec InvTotal AskSpec NarrowTotal TotalAsk PropAsk ReturnSpec SwitchTotal ReturnProofs FunSpec FunTotal PropFun MIFunSpec.
Import ListNotations.
Local Open Scope R_scope.

Section Properties.
  Context {N : numsys} {S : logsys} {D : distsys N S} (io : iterorder N) (po : polyoracle N) (fuel : nat).
  Context (dlaw : dist D -> (fval -> R) -> R).
  Context (ident : spe D -> nat) (hash : spe D -> Z) (nominal : string -> bool) (cuts points : string -> R -> Prop).
  Notation spe := (spe D).
  Notation tr := (tr N).
  Notation compares := (compares po nominal cuts).
  Notation posed := (posed po nominal cuts points).
  Notation mutual_information := (mutual_information io po fuel ident).
  Context (Hf : (2 <= fuel)%nat).

  (** what such an event looks like *)
  Lemma compares_basic : forall x e, compares x e -> exists k t v, e = EBasic k t v /\ symbols t = [x] /\ v <> PEmpty.
  Proof.
    intros x e [(t & c & (o & [->| ->]) & _ & _ & Sx & _)|(vs & f & -> & _)]; (eexists; eexists; eexists; split; [reflexivity|]; split; [auto|discriminate]).
  Qed.
  Lemma compares_symbols : forall x e, compares x e -> symbols e = [x].
  Proof. intros x e Ce. destruct (compares_basic x e Ce) as (k & t & v & -> & Sx & _). exact Sx. Qed.
  Lemma compares_lits : forall x e, compares x e -> lits e = [e].
  Proof. intros x e Ce. destruct (compares_basic x e Ce) as (k & t & v & -> & _). reflexivity. Qed.
  Lemma compares_single : forall x e z, compares x e -> single z e.
  Proof. intros x e z Ce. destruct (compares_basic x e Ce) as (k & t & v & -> & _). exact Logic.I. Qed.
  Lemma compares_lit : forall x e, compares x e -> comparison nominal cuts points e \/ curve po nominal cuts e.
  Proof.
    intros x e [(t & c & (o & [->| ->]) & Ch & Ca & Sx & Nx & Cx)|(vs & f & -> & _ & Nx)].
    1,2: right; (eexists; exists t; eexists; exists x; split; [reflexivity|]; split; [|auto]); (split; [repeat split; cbn; auto; discriminate|exact Ch]).
    left. exists KNom, x, (PB (BNom vs f)). split; auto. rewrite Nx. right. exact Logic.I.
  Qed.
  (** the complement of a half-line is a half-line *)
  Lemma compares_not : forall x e, compares x e -> exists n, ev_not io e = Ok n /\ compares x n.
  Proof.
    intros x e [(t & c & (o & [->| ->]) & K)|(vs & f & -> & Ne & Nx)].
    - eexists; split; [reflexivity|]. left. exists t, c. split; [|exact K]. exists (negb o). right. cbn. now rewrite orb_false_r.
    - eexists; split; [reflexivity|]. left. exists t, c. split; [|exact K]. exists (negb o). left. cbn. now rewrite orb_false_r.
    - destruct vs as [|v vs]; [now elim Ne|]. eexists; split; [reflexivity|]. right. eexists; eexists. split; [reflexivity|]. split; auto.
      destruct (dedup_In_eq String.eqb String.eqb_refl ltac:(intros p q r H1 H2; apply String.eqb_eq in H1, H2; subst; apply String.eqb_refl) (v :: vs) v) as (y & Hy & _); [now left|]. intros E. rewrite E in Hy. destruct Hy.
  Qed.
  Lemma compares_posed : forall x e, gev e -> compares x e -> posed e.
  Proof.
    intros x e G Ce. split; auto. rewrite (compares_lits x e Ce). split; [constructor; auto; now apply (compares_lit x)|]. intros a z [<-|[]] _. right. left. now apply (compares_single x).
  Qed.
  Lemma compares_and : forall x y a b, x <> y -> gev a -> gev b -> compares x a -> compares y b -> ev_and io a b = Ok (EAnd [a; b]) /\ posed (EAnd [a; b]).
  Proof.
    intros x y a b Ne Ga Gb Ca Cb. split.
    - destruct (compares_basic x a Ca) as (k & t & v & -> & Sx & _). destruct (compares_basic y b Cb) as (j & u & w & -> & Sy & _).
      cbn [ev_and]. destruct (teqb u t) eqn:E; [|reflexivity]. apply teqb_symbols in E. rewrite Sx, Sy in E. injection E as E. now elim Ne.
    - split; [|split].
      + apply (EventAnd_ok [a; b]); [repeat constructor; auto; (apply Ga || apply Gb)|]. destruct Ga as (_ & Ia), Gb as (_ & Ib). unfold EventAnd, compound_ok. cbn [forallb]. rewrite Ia, Ib. reflexivity.
      + cbn [lits map List.concat]. rewrite (compares_lits x a Ca), (compares_lits y b Cb). cbn [app]. constructor; [now apply (compares_lit x)|]. constructor; [now apply (compares_lit y)|constructor].
      + intros e z _ _. right. left. cbn [single All]. split; [split; [now apply (compares_single x)|split; [now apply (compares_single y)|exact Logic.I]]|].
        constructor; [|constructor; [constructor|constructor]]. constructor; [|constructor]. rewrite (compares_symbols x a Ca), (compares_symbols y b Cb). intros ([->|[]] & [->|[]]). now apply Ne.
  Qed.
  (** The information that a comparison of a function of one variable with a number has about such a
      comparison of another variable is computed, if the functions are defined almost surely. *)
  Theorem C38_function_answers : forall s x y a b, wf_spe dlaw s -> distinct ident s -> is_leaf s = false -> x <> y -> vars s x -> vars s y -> prepared po nominal cuts points (fun z => z = x \/ z = y) true s ->
    gev a -> gev b -> compares x a -> compares y b ->
    surely dlaw s (fun w => regular true a w /\ teval a w <> None) -> surely dlaw s (fun w => regular true b w /\ teval b w <> None) ->
    exists r, mutual_information s a b = Ok r /\ r = information dlaw s (holds a) (holds b).
  Proof.
    intros s x y a b W Ds Nl Ne Vx Vy Pr Ga Gb Ca Cb Ra Rb.
    assert (At : atoms_ok nominal s) by (eapply prepared_atoms; eauto).
    assert (Dec : forall z e, compares z e -> gev e -> surely dlaw s (fun w => regular true e w /\ teval e w <> None) -> decided dlaw nominal s e).
    { intros z e Ce Ge Re. split; auto. split; [eapply (posed_sorts po nominal cuts points (fun _ => [])); now apply (compares_posed z e)|]. split; auto.
      destruct (compares_basic z e Ce) as (k & t & v & -> & _ & Nv). constructor; [|constructor]. destruct v; [now elim Nv|exact Logic.I|exact Logic.I]. }
    pose proof (Dec x a Ca Ga Ra) as Da. pose proof (Dec y b Cb Gb Rb) as Db.
    destruct (compares_not x a Ca) as (na & Ena & Cna). destruct (compares_not y b Cb) as (nb & Enb & Cnb).
    destruct (ev_not_ok io a na Ga Ena) as (Gna & _). destruct (ev_not_ok io b nb Gb Enb) as (Gnb & _).
    destruct (compares_and x y a b Ne Ga Gb Ca Cb) as (E11 & P11). destruct (compares_and x y a nb Ne Ga Gnb Ca Cnb) as (E10 & P10). destruct (compares_and x y na b Ne Gna Gb Cna Cb) as (E01 & P01).
    destruct (mi_returns io po fuel dlaw ident nominal s a b na nb _ _ _ W At Ds Da Db Ena Enb E11 E10 E01) as (r & Hr).
    2:{ exists r. split; auto. now apply (C38_value io po fuel dlaw ident nominal). }
    assert (Go : forall e m, posed e -> (forall z, In z (symbols e) -> z = x \/ z = y) -> valid dlaw ident (within s) (fun _ => True) (fun _ => True) (fun _ => True) m -> exists p, fst (logprob io po fuel ident s e m) = Ok p).
    { intros e m Pe Ve Vm. apply (fun_safe io po fuel dlaw ident hash nominal cuts points Hf (within s) (within_closed ident s Ds) (fun _ => True) (fun _ => True) (fun _ => True) (fun z => z = x \/ z = y) s e (within_self s) W Pr Pe); auto.
      intros z Hz. pose proof (Ve z Hz) as Hv. split; auto. destruct Hv as [->| ->]; auto. }
    assert (Sy : forall e f, compares x e -> compares y f -> forall z, In z (symbols (EAnd [e; f])) -> z = x \/ z = y).
    { intros e f Ce Cf z Hz. cbn [symbols map] in Hz. rewrite (compares_symbols x e Ce), (compares_symbols y f Cf) in Hz. apply in_sunions in Hz. destruct Hz as (m & [<-|[<-|[]]] & [->|[]]); auto. }
    intros e m He Vm. destruct He as [<-|[<-|[<-|[<-|[<-|[]]]]]]; apply Go; auto.
    - now apply (compares_posed x).
    - rewrite (compares_symbols x a Ca). intros z [->|[]]; auto.
    - now apply (compares_posed y).
    - rewrite (compares_symbols y b Cb). intros z [->|[]]; auto.
    - exact (Sy a b Ca Cb).
    - exact (Sy a nb Ca Cnb).
    - exact (Sy na b Cna Cb).
  Qed.

  Lemma everywhere_defined : forall (t : tr) x w r, everywhere t -> symbols t = [x] -> w x = FNum r -> (exists y, teval t w = Some (FNum y)) /\ forall g, regular g t w.
  Proof.
    induction t using tr_ind'; intros z a r Ev Sx Ex; cbn [everywhere symbols] in *; try contradiction.
    1: injection Sx as ->; split; [exists r; cbn; now rewrite Ex|]; intros g; exact Logic.I.
    all: destruct (IHt z a r Ev Sx Ex) as ((y & Ey) & Rg); split; [cbn [teval]; rewrite Ey; eexists; reflexivity|]; intros g; apply Rg.
  Qed.
  Lemma truth_some : forall P, truth P <> None.
  Proof. intros P. unfold truth. destruct (dec P); discriminate. Qed.
  Lemma compares_defined : forall x e (s : spe) w, compares x e -> match e with EBasic _ t _ => everywhere t | _ => False end -> vars s x -> proper nominal s w -> regular true e w /\ teval e w <> None.
  Proof.
    intros x e s w Ce Ev Vx Pw. assert (Sw : sort1 nominal x (w x)) by (apply Classical_Prop.NNPP; intros K; apply Pw; exists x; auto).
    destruct Ce as [(t & c & (o & Ee) & _ & _ & Sx & Nx & _)|(vs & f & -> & _ & Nx)].
    - destruct (w x) as [r|z] eqn:Ex; [|cbn in Sw; congruence].
      assert (Et : everywhere t) by (destruct Ee as [->| ->]; exact Ev). destruct (everywhere_defined t x w r Et Sx Ex) as ((y & Ey) & Rg).
      destruct Ee as [->| ->]; (split; [split; [apply Rg|discriminate]|]); cbn [teval]; rewrite Ey; apply truth_some.
    - destruct (w x) as [r|z] eqn:Ex; [cbn in Sw; congruence|]. split; [split; [exact Logic.I|]; intros _; now left|]. cbn [teval]. rewrite Ex. apply truth_some.
  Qed.
  (** Nothing is assumed about the distribution if the functions are defined everywhere. *)
  Theorem C38_function_answers_everywhere : forall envof s x y a b, wf_spe dlaw s -> typed nominal envof s -> distinct ident s -> is_leaf s = false -> x <> y -> vars s x -> vars s y -> prepared po nominal cuts points (fun z => z = x \/ z = y) true s ->
    gev a -> gev b -> compares x a -> compares y b -> (forall k t v, a = EBasic k t v \/ b = EBasic k t v -> everywhere t) ->
    exists r, mutual_information s a b = Ok r /\ r = information dlaw s (holds a) (holds b).
  Proof.
    intros envof s x y a b W T Ds Nl Ne Vx Vy Pr Ga Gb Ca Cb Ev.
    assert (Go : forall z e, e = a \/ e = b -> compares z e -> vars s z -> surely dlaw s (fun w => regular true e w /\ teval e w <> None)).
    { intros z e He Ce Vz w. apply (law_null_sub (den_kernel dlaw s W w) (fun w => ~ proper nominal s w)); [now apply (proper_sure dlaw nominal envof)|].
      intros v H K. apply H. apply (compares_defined z e s); auto. destruct (compares_basic z e Ce) as (k & t & u & -> & _). apply (Ev k t u). destruct He; auto. }
    apply (C38_function_answers s x y a b); auto; [apply (Go x)|apply (Go y)]; auto.
  Qed.
End Properties.

Definition all_mi_fun_properties := (@C38_function_answers, @C38_function_answers_everywhere).
Print Assumptions all_mi_fun_properties.
