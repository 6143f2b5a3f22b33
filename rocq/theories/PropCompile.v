(** Property C55: programs that sample, transform, condition and branch compile. *)
From Coq Require Import List Bool String Reals Lra Lia ZArith PeanoNat.
From Verif Require Import Base Num Sets SetSpec SetIv SetProofs SetOr SetOps SetAlg SetBuilt
  Poly Trans TransSpec TransFacts PolyProofs InvProofs InvMain EvProofs ArithProofs
  Dnf DnfSpec DnfProofs DnfUnion PropDnf Logs Spe SpeSpec SpeFacts SpeRect LeafProofs LeafEvents LeafCond SpeCons LeafGiven MemoProofs
  NormSorts LogprobProofs LogprobTop SpeEq SimplifyProofs CondTypes CondProofs CondTop PropSpe SpeOps OpsProofs BuildProofs TransformProofs PropCons Prog ProgSpec ProgEvents ProgProofs PropProg
  TotalSpec TotalEnds TotalSets TotalSolve TotalProofs PropTotal TotalUnion TotalGrid CondLeafTotal SimplifyTotal TightUnion Diffuse CondTotal PropCondTotal BranchTotal ReturnSpec SwitchTotal ReturnProofs
  CondShape TransformTotal TransformShape CompileSpec CompileProofs.
Import ListNotations.
Local Open Scope R_scope.

Section Properties.
  Context {N : numsys} {S : logsys} {D : distsys N S} (io : iterorder N) (so : strorder) (po : polyoracle N).
  Context (dlaw : dist D -> (fval -> R) -> R) (Ed : eq_dist dlaw).
  Context (hash : spe D -> Z) (ids : spe D -> spe D -> nat) (no_simplify : bool) (nominal derived : string -> bool).
  Notation spe := (spe D).
  Notation tr := (tr N).
  Notation den := (den dlaw).
  Notation none := (fun (_ : string) (_ : R) => False).
  Notation interpret fuel := (interpret io so po fuel hash ids no_simplify).
  Context (Hid : forall s, distinct (ids s) s).
  Context (Hh : no_simplify = true \/ forall a b, is_leaf a = true -> is_leaf b = true -> hash a = hash b -> speqb (D:=D) a b = true).

  Lemma whole : forall cuts c W m', compiles dlaw nominal derived cuts c (fun _ => False) start None W m' ->
    exists rounds, forall fuel, (rounds <= fuel)%nat -> exists o, interpret fuel c None = Ok o /\ stands dlaw nominal o W (meaning dlaw c start) /\ shaped nominal derived cuts o W m'.
  Proof.
    intros cuts c W m' C. destruct (compile_ok io so po dlaw Ed hash ids no_simplify nominal derived cuts Hid Hh _ _ _ _ _ _ C) as (Ft & k & Hk).
    assert (St : stands dlaw nominal (None : option spe) (fun _ => False) start) by (split; [intros x []|reflexivity]). exists k. intros fuel Hf. destruct (Hk fuel None Hf St Logic.I) as (o & Eo & So). exists o. split; auto. split; auto.
    destruct (run_ok io so po fuel dlaw Ed hash ids no_simplify nominal Hid Hh c _ _ _ (Ft None St Logic.I) None o St Eo) as (Sw & _). exact Sw.
  Qed.
  (** The program runs to its end, and the expression has the variables and the distribution of
      the program. *)
  Theorem C55_compiles_partial : forall cuts c W m', compiles dlaw nominal derived cuts c (fun _ => False) start None W m' ->
    exists rounds, forall fuel, (rounds <= fuel)%nat -> exists o, interpret fuel c None = Ok o /\
      match o with
      | Some s => wf_spe dlaw s /\ (forall x, vars s x <-> W x) /\ forall f w, simple f -> den s f w = meaning dlaw c start f w
      | None => (forall x, ~ W x) /\ forall f w, meaning dlaw c start f w = f w
      end.
  Proof.
    intros cuts c W m' C. destruct (whole cuts c W m' C) as (k & Hk). exists k. intros fuel Hf. destruct (Hk fuel Hf) as (o & Eo & So & _). exists o. split; auto. destruct o as [s|]; [|exact So]. destruct So as (A & _ & B & K). auto.
  Qed.
  Lemma open_cuts : forall (cuts cuts' : string -> R -> Prop) (s : spe), open_leaves nominal cuts false s -> open_leaves nominal cuts' false s.
  Proof.
    intros cuts cuts'. induction s using spe_ind'; intros O; cbn [open_leaves] in *; auto.
    - destruct O as (O1 & _). split; auto; discriminate.
    - apply all_forall. intros c Hc. apply H; auto. exact (SpeFacts.All_In _ _ _ _ O Hc).
    - apply all_forall. intros c Hc. apply H; auto. exact (SpeFacts.All_In _ _ _ _ O Hc).
  Qed.
  (** When the program samples at least two variables, the expression then answers every question
      that combines comparisons of sampled variables, with the probability under the program. *)
  Theorem C55_answers_partial : forall cuts c W m', compiles dlaw nominal derived cuts c (fun _ => False) start None W m' -> two (base derived W) ->
    exists rounds, forall fuel, (rounds <= fuel)%nat -> exists s, interpret fuel c None = Ok (Some s) /\
      forall cuts' points (e : tr) fuel', (1 <= fuel')%nat -> direct nominal cuts' points e -> (forall x, In x (symbols e) -> base derived W x) ->
      exists p, fresh (logprob io po fuel' (ids s) s e) = Ok p /\ forall w, toP p = meaning dlaw c start (ind (holds e)) w.
  Proof.
    intros cuts c W m' C Tw. destruct (whole cuts c W m' C) as (k & Hk). exists k. intros fuel Hf. destruct (Hk fuel Hf) as (o & Eo & So & Sh). pose proof Tw as (x & _ & (Wx & _) & _).
    destruct o as [s|]; [|destruct (proj1 So x Wx)]. exists s. split; auto. destruct So as (Ws & Ts & Vs & Dk), Sh as (Td & _). intros cuts' points e fuel' Hf' De Sy.
    pose proof (wide_products dlaw nominal derived cuts _ s Ws Td (two_iff _ _ (base_iff derived W (vars s) (fun x => iff_sym (Vs x))) Tw)) as Wp.
    assert (O : open_leaves nominal cuts' true s).
    { destruct (tidy_open nominal derived cuts _ s Td) as (O & _). apply (open_cuts cuts cuts') in O. destruct s as [disc z d supp cond env|z a env|z ws|l|l]; cbn [summands] in Wp; try (inversion Wp; discriminate).
      - cbn [open_leaves] in *. apply all_forall. intros c' Hc'. pose proof (SpeFacts.All_In _ _ _ _ O Hc') as Oc. cbn beta in Oc. rewrite Forall_map, Forall_forall in Wp. specialize (Wp c' Hc'). destruct (fst c'); try discriminate Wp. exact Oc.
      - exact O. }
    assert (Lf : leaf_form s e) by (intros Il; destruct s; try discriminate Il; inversion Wp; discriminate).
    assert (V' : forall y, In y (symbols e) -> own s y) by (intros y Hy; apply (tidy_own dlaw nominal derived cuts (two (base derived W))); auto; [apply Vs|]; now apply Sy).
    assert (Vv : forall y, In y (symbols e) -> vars s y) by (intros y Hy; apply Vs; now apply Sy).
    destruct (C54_answers_partial io po fuel' dlaw (ids s) hash nominal cuts' points Hf' s e Ws (Hid s) O De V' Lf) as (p & Ep & Pp). exists p. split; auto. intros w. rewrite Pp.
    assert (Un : univariate e) by (destruct (direct_cmps nominal cuts' points e De) as (_ & Ce); eapply Forall_impl; [|exact Ce]; intros a (y & (_ & k' & v & -> & _)); exists y; intros z [<-|[]]; reflexivity).
    rewrite <- Dk by (apply event_simple; [apply De|exact Un]). apply den_closed; auto. intros a b E. apply ind_eq. unfold holds. rewrite (teval_agree e a b); [reflexivity|apply De|]. intros y Hy. apply E. auto.
  Qed.
End Properties.
