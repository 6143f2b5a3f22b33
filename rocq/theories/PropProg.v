(** Properties C33-C35: branching, case selection and composition of commands. *)
From Coq Require Import List Bool String Reals Lra Lia ZArith QArith Qreals FunctionalExtensionality Permutation Classical.
From Verif Require Import Base Num Sets SetSpec SetIv SetProofs SetOr SetOps SetAlg SetBuilt
  Poly Trans TransSpec TransFacts PolyProofs InvProofs InvMain EvProofs ArithProofs
  Dnf DnfSpec DnfProofs DnfUnion Logs Spe SpeSpec SpeFacts SpeRect LeafProofs LeafEvents LeafCond SpeCons LeafGiven MemoProofs NormSorts LogprobProofs LogprobTop SpeEq SimplifyProofs CondTypes CondProofs CondTop PropDnf PropSpe SpeOps OpsProofs BuildProofs TransformProofs PropCons Prog ProgSpec ProgEvents ProgProofs.
Import ListNotations.
Local Open Scope R_scope.

Section Properties.
  Context {N : numsys} {S : logsys} {D : distsys N S} (io : iterorder N) (so : strorder) (po : polyoracle N) (fuel : nat).
  Context (dlaw : dist D -> (fval -> R) -> R) (Ed : eq_dist dlaw).
  Context (hash : spe D -> Z) (ids : spe D -> spe D -> nat) (no_simplify : bool) (nominal : string -> bool).
  Notation spe := (spe D).
  Notation tr := (tr N).
  Notation command := (command (N:=N) (D:=D)).
  Notation den := (den dlaw).
  Notation Pr := (Pr dlaw).
  Notation wf_spe := (wf_spe dlaw).
  Notation surely := (surely dlaw).
  Notation meaning := (meaning dlaw).
  Notation interpret := (interpret io so po fuel hash ids no_simplify).
  Context (Hid : forall s, distinct (ids s) s).
  Context (Hh : no_simplify = true \/ forall a b, is_leaf a = true -> is_leaf b = true -> hash a = hash b -> speqb (D:=D) a b = true).

  (** ** C33: branching *)

  (** [c] is [s] given P: it has the same variables, and the distribution given P *)
  Definition conditioned (envof : string -> tenv (N:=N)) (s : spe) (P : asg -> Prop) (c : spe) : Prop :=
    wf_spe c /\ typed nominal envof c /\ (forall x, vars c x <-> vars s x) /\ 0 < Pr s P /\ given dlaw s P c.
  Notation case := ((asg -> Prop) * command)%type.
  (** the branches that were run: case, expression before and expression after *)
  Definition runs_of (envof : string -> tenv (N:=N)) (s : spe) (cases : list case) (kids : list (case * spe * spe)) : Prop :=
    map (fun k => fst (fst k)) kids = filter (fun q => if dec (0 < Pr s (fst q)) then true else false) (firsts cases) /\
    forall q c d, In (q, c, d) kids -> conditioned envof s (fst q) c /\ interpret (snd q) (Some c) = Ok (Some d).
  (** t is the mixture of the results of the branches, by the probabilities of the cases *)
  Definition mixture_of (s : spe) (kids : list (case * spe * spe)) (t : spe) : Prop :=
    wf_spe t /\ (forall q c d x, In (q, c, d) kids -> vars t x <-> vars d x) /\
    forall f w, simple f -> den t f w = sumR (map (fun k => Pr s (fst (fst (fst k))) * den (snd k) f w) kids).
  (** the expression d gives the variables of s the distribution they have in c *)
  Definition keeps (s c d : spe) : Prop := forall f w, simple f -> reads (vars s) f -> den d f w = den c f w.

  Lemma block_mixture : forall X (l : list X) (P : X -> asg -> Prop) (c : X -> command) envof envof' s A evs t,
    wf_spe s -> typed nominal envof s -> surely s A -> (forall x, In x l -> simple (ind (P x))) -> surely s (fun a => exists x, In x l /\ P x a) ->
    Forall2 (fun o q => event_for nominal (vars s) A (fst q) o) evs (firsts (map (fun x => (P x, c x)) l)) ->
    if_block io so po fuel hash ids no_simplify (Some s) evs (map (fun x s => interpret (c x) (Some s)) l) = Ok (Some t) ->
    exists kids, runs_of envof s (map (fun x => (P x, c x)) l) kids /\
      ((forall q c d, In (q, c, d) kids -> wf_spe d /\ typed nominal envof' d) ->
       mixture_of s kids t /\ ((forall q c d, In (q, c, d) kids -> keeps s c d) -> keeps s s t)).
  Proof.
    intros X l P c envof envof' s A evs t W T SA Sp Ex Ev H. set (Ps := firsts (map (fun x => (P x, c x)) l)) in *.
    assert (SPs : forall q, In q Ps -> simple (ind (fst q))).
    { apply firsts_simple. intros p Hp. apply in_map_iff in Hp. destruct Hp as (x & <- & Hx). cbn [fst]. auto. }
    assert (F : Forall2 (event_at nominal s A) Ps evs) by (clear -Ev; induction Ev; constructor; auto).
    assert (Len : List.length (map (fun x s => interpret (c x) (Some s)) l) = List.length evs).
    { rewrite map_length. transitivity (List.length Ps); [|clear -F; induction F; simpl; auto]. unfold Ps. rewrite <- (map_length snd (firsts _)), firsts_snd, !map_length. reflexivity. }
    assert (Tot : forall w, sumR (map (fun q => den s (ind (fst q)) w) Ps) = 1).
    { intros w. rewrite <- (law_sum (den_kernel dlaw s W w) _ Ps (fun q => ind (fst q))) by (intros; apply bnd_ind).
      rewrite (den_ext dlaw s _ (ind (fun a => exists x, In x l /\ P x a))); [now apply surely_den|].
      intros a. unfold Ps. rewrite firsts_total. apply ind_eq. split.
      + intros (p & Hp & Pa). apply in_map_iff in Hp. destruct Hp as (x & <- & Hx). eauto.
      + intros (x & Hx & Pa). exists (P x, c x). split; auto. apply in_map_iff. eauto. }
    destruct (block_kids io so po fuel dlaw Ed hash ids no_simplify nominal envof envof' s W T A SA Hid Hh Ps evs _ (Some t) F Len (Tot w0) H) as (t' & kids & Et & (K1 & K2) & Ne & Rest).
    injection Et as <-.
    assert (Ck : forall q c d, In (q, c, d) kids -> conditioned envof s (fst q) c /\ interpret (snd q) (Some c) = Ok (Some d) /\ In q Ps).
    { intros q c' d Hk. destruct (K2 _ Hk) as ((B1 & B2 & B3 & B4 & B5) & sub & Hs & Es). cbn [fst snd] in *. pose proof (in_combine_l _ _ _ _ Hs) as Hq.
      pose proof (subs_at io so po fuel hash ids no_simplify X X l (fun x => x) P c Ps eq_refl q sub Hs) as ->. split; [|auto]. split; auto. split; auto. split; auto. split; auto. apply B4. }
    exists kids. split; [split; [exact K1|intros q c' d Hk; destruct (Ck q c' d Hk) as (C1 & C2 & _); auto]|]. intros Wk.
    destruct Rest as (B1 & B2 & B3 & B4); [intros ((q, c'), d) Hk; apply (Wk q c' d Hk)|].
    split; [split; auto; split; auto; intros q c' d x Hk; apply (B3 _ x Hk)|].
    intros Kp f w Sf Rf. rewrite B4 by auto.
    assert (Cn : forall q, In q Ps -> den s (ind (fst q)) w = Pr s (fst q)).
    { intros q Hq. destruct (Forall2_in_l _ _ _ _ _ _ F Hq) as (o' & _ & K). exact (event_const dlaw nominal s W A SA q o' w K). }
    transitivity (sumR (map (fun q => den s (fun a => f a * ind (fst q) a) w) (filter (likely dlaw s) Ps))).
    { rewrite <- K1, map_map. apply sumR_ext. intros ((q, c'), d) Hk. cbn [fst snd]. destruct (Ck q c' d Hk) as ((C1 & _ & C2 & C3 & C4) & C5 & C6). rewrite (Kp q c' d Hk f w Sf Rf), <- (C4 f Sf w), (Cn q C6). ring. }
    transitivity (sumR (map (fun q => den s (fun a => f a * ind (fst q) a) w) Ps)).
    { clear -Cn W Sf. clearbody Ps. induction Ps as [|q Ps IH]; auto. cbn [filter map]. change (sumR (?a :: ?l)) with (a + sumR l). rewrite <- IH by (intros; apply Cn; now right). unfold likely at 1. destruct (dec (0 < Pr s (fst q))) as [K|K]; [reflexivity|].
      rewrite (law_null (den_kernel dlaw s W w) (fst q)); [lra| | |].
      - rewrite Cn by now left. assert (0 <= Pr s (fst q)) by apply (law_01 (den_kernel dlaw s W w0)). lra.
      - apply bnd_mult; [now apply simple_bnd|apply bnd_ind].
      - intros a Ha. rewrite ind_false by auto. ring. }
    rewrite <- (law_sum (den_kernel dlaw s W w) _ Ps (fun q a => f a * ind (fst q) a)) by (intros; apply bnd_mult; [now apply simple_bnd|apply bnd_ind]).
    apply (den_as dlaw s (fun a => ~ exists x, In x l /\ P x a)); auto.
    - apply simple_bnd. apply simple_sum. intros q Hq. apply simple_mult; auto.
    - now apply simple_bnd.
    - intros a Ha. apply NNPP in Ha. transitivity (f a * sumR (map (fun q => ind (fst q) a) Ps)); [rewrite Rmult_comm, <- sumR_scale; apply sumR_ext; intros; ring|].
      unfold Ps. rewrite firsts_total, ind_true; [ring|]. destruct Ha as (x & Hx & Pa). exists (P x, c x). split; auto. apply in_map_iff. eauto.
  Qed.

  (** a condition that can be used on s: its parts speak of one variable each, it is almost
      surely true or false, and almost surely used inside its domain *)
  Definition condition_ok (s : spe) (e : tr) : Prop :=
    guard nominal (vars s) e /\ surely s (regular true e) /\ surely s (fun a => teval e a <> None).
  Definition cases_of (bs : list (option tr * command)) : list case := map (fun b => (test (fst b), snd b)) bs.

  Lemma conditions_clear : forall s (bs : list (option tr * command)), wf_spe s -> (forall e, In (Some e) (map fst bs) -> condition_ok s e) ->
    surely s (fun w => forall e, In e (somes (map fst bs)) -> regular true e w /\ teval e w <> None).
  Proof.
    intros s bs W Gd. apply surely_all_in; auto. intros e He. apply in_somes in He. destruct (Gd e He) as (_ & R1 & R2). apply surely_and; auto.
  Qed.
  Lemma tests_simple : forall s (bs : list (option tr * command)), (forall e, In (Some e) (map fst bs) -> condition_ok s e) -> forall b, In b bs -> simple (ind (test (fst b))).
  Proof.
    intros s bs Gd b Hb. destruct (fst b) as [e|] eqn:Eb; [|apply simple_ind_const]. destruct (Gd e) as (((G & Un & _) & _) & _); [rewrite <- Eb; now apply in_map|]. now apply event_simple.
  Qed.

  (** The result is the mixture of the results of the branches, each run on s given that its
      condition is the first to hold; when every branch keeps the distribution of the variables
      it starts with, so does the result. *)
  Theorem C33_mixture : forall envof envof' bs s t, wf_spe s -> typed nominal envof s ->
    (forall e, In (Some e) (map fst bs) -> condition_ok s e) -> surely s (fun a => exists b, In b bs /\ test (fst b) a) ->
    interpret (IfElse bs) (Some s) = Ok (Some t) ->
    exists kids, runs_of envof s (cases_of bs) kids /\
      ((forall q c d, In (q, c, d) kids -> wf_spe d /\ typed nominal envof' d) ->
       mixture_of s kids t /\ ((forall q c d, In (q, c, d) kids -> keeps s c d) -> keeps s s t)).
  Proof.
    intros envof envof' bs s t W T Gd Ex H. cbn [Prog.interpret on] in H. inv_bind H. rename r into evs.
    apply (block_mixture _ bs (fun b => test (fst b)) snd envof envof' s (fun w => forall e, In e (somes (map fst bs)) -> regular true e w /\ teval e w <> None) evs t); auto.
    - now apply conditions_clear.
    - now apply tests_simple with (s := s).
    - apply (if_events_ok io po fuel nominal (vars s) _ bs evs); auto. intros e He. split; [apply Gd; auto|]. intros w Aw. apply Aw. now apply in_somes.
  Qed.
  (** When the interpreter returns, the probability that some condition holds is 1 up to the
      tolerance of its check. *)
  Lemma block_total : forall X (l : list X) (P : X -> asg -> Prop) (c : X -> command) envof s A evs t tol,
    wf_spe s -> typed nominal envof s -> surely s A ->
    Forall2 (fun o q => event_for nominal (vars s) A (fst q) o) evs (firsts (map (fun x => (P x, c x)) l)) ->
    (forall a : lg S, lclose a lzero = true -> Rabs (toP a - 1) <= tol) ->
    if_block io so po fuel hash ids no_simplify (Some s) evs (map (fun x s => interpret (c x) (Some s)) l) = Ok t ->
    Rabs (Pr s (fun a => exists x, In x l /\ P x a) - 1) <= tol.
  Proof.
    intros X l P c envof s A evs t tol W T SA Ev Hc H. set (Ps := firsts (map (fun x => (P x, c x)) l)) in *.
    assert (F : Forall2 (event_at nominal s A) Ps evs) by (clear -Ev; induction Ev; constructor; auto).
    assert (Len : List.length (map (fun x s => interpret (c x) (Some s)) l) = List.length evs).
    { rewrite map_length. transitivity (List.length Ps); [|clear -F; induction F; simpl; auto]. unfold Ps. rewrite <- (map_length snd (firsts _)), firsts_snd, !map_length. reflexivity. }
    assert (LP : List.length Ps = List.length (map (fun x s => interpret (c x) (Some s)) l)) by (rewrite Len; clear -F; induction F; simpl; auto).
    unfold if_block in H. inv_bind H. inv_bind H. inv_bind H. inv_bind H. clear H. destruct (branches_ok io so po fuel dlaw Ed hash ids nominal envof s W T A SA Hid Ps evs _ r0 F Len E0) as (ws & Fw & Fr).
    assert (Cl : lclose r1 lzero = true) by (destruct (lclose r1 lzero); [auto|discriminate E2]). specialize (Hc _ Cl). apply lse_sum in E1. destruct E1 as (_ & E1). rewrite E1 in Hc.
    replace (Pr s (fun a => exists x, In x l /\ P x a)) with (sumR (map toP (map snd r0))); auto.
    assert (Rw : map snd r0 = map snd (positive (combine (combine Ps (map (fun x s => interpret (c x) (Some s)) l)) ws))) by (clear -Fr; induction Fr as [|p row L rows (_ & R2 & _) Fr IH]; cbn; congruence).
    rewrite Rw. transitivity (sumR (map (fun q => den s (ind (fst q)) w0) Ps)).
    - clear -Fw LP. revert LP. generalize (map (fun x s => interpret (c x) (Some s)) l) as subs. induction Fw as [|q w' Ps ws E Fw IH]; intros [|sub subs] LP; try discriminate; auto. cbn [combine map]. unfold positive in *. cbn [filter snd]. change (sumR (den s (ind (fst q)) w0 :: ?l)) with (Pr s (fst q) + sumR l). rewrite <- (IH subs) by (cbn in LP; lia).
      pose proof (lisninf_ok S w') as Lw. destruct (lisninf w') eqn:En; cbn [negb map snd].
      + assert (Z : toP w' = 0) by now apply Lw. lra.
      + change (sumR (?a :: ?l)) with (a + sumR l). lra.
    - rewrite <- (law_sum (den_kernel dlaw s W w0) _ Ps (fun q => ind (fst q))) by (intros; apply bnd_ind).
      apply (den_ext dlaw s). intros a. unfold Ps. rewrite firsts_total. apply ind_eq. split.
      + intros (p & Hp & Pa). apply in_map_iff in Hp. destruct Hp as (x & <- & Hx). eauto.
      + intros (x & Hx & Pa). exists (P x, c x). split; auto. apply in_map_iff. eauto.
  Qed.
  Theorem C33_exhaustive : forall envof bs s o tol, wf_spe s -> typed nominal envof s ->
    (forall e, In (Some e) (map fst bs) -> condition_ok s e) -> (forall a : lg S, lclose a lzero = true -> Rabs (toP a - 1) <= tol) ->
    interpret (IfElse bs) (Some s) = Ok o -> Rabs (Pr s (fun a => exists b, In b bs /\ test (fst b) a) - 1) <= tol.
  Proof.
    intros envof bs s o tol W T Gd Hc H. cbn [Prog.interpret on] in H. inv_bind H. rename r into evs.
    apply (block_total _ bs (fun b => test (fst b)) snd envof s (fun w => forall e, In e (somes (map fst bs)) -> regular true e w /\ teval e w <> None) evs o tol); auto.
    - now apply conditions_clear.
    - apply (if_events_ok io po fuel nominal (vars s) _ bs evs); auto. intros e He. split; [apply Gd; auto|]. intros w Aw. apply Aw. now apply in_somes.
  Qed.

  (** For programs without Constrain the branches have the meaning of ProgSpec.v. *)
  Notation stands := (stands dlaw nominal).
  Lemma own : forall s, wf_spe s -> typed nominal no_env s -> stands (Some s) (vars s) (den s).
  Proof. intros s W T. split; auto. split; auto. split; [tauto|auto]. Qed.
  Theorem C33_ifelse : forall bs s W t, wf_spe s -> typed nominal no_env s -> fits dlaw nominal (IfElse bs) (vars s) (den s) W ->
    interpret (IfElse bs) (Some s) = Ok (Some t) ->
    wf_spe t /\ (forall x, vars t x <-> W x) /\
    forall f w, simple f -> den t f w = sumR (map (fun q => den s (ind (fst q)) w * meaning (snd q) (restrict (den s) (fst q)) f w) (firsts (cases_of bs))).
  Proof.
    intros bs s W t Ws Ts F H. destruct (run_ok io so po fuel dlaw Ed hash ids no_simplify nominal Hid Hh _ _ _ _ F _ _ (own s Ws Ts) H) as ((A1 & A2 & A3 & A4) & _). split; auto. split; auto.
    intros f w Sf. rewrite A4 by auto. cbn [ProgSpec.meaning]. unfold total, cases_of. replace (map (fun b => (test (fst b), meaning (snd b))) bs) with (map (fun p => (fst p, meaning (snd p))) (map (fun b : option tr * command => (test (fst b), snd b)) bs)) by (rewrite map_map; reflexivity).
    rewrite firsts_map, map_map. reflexivity.
  Qed.
  (** Programs that only add variables keep the distribution of the variables they start with. *)
  Theorem C33_keeps : forall c s W t, wf_spe s -> typed nominal no_env s -> calm c -> fits dlaw nominal c (vars s) (den s) W ->
    interpret c (Some s) = Ok (Some t) -> (forall x, vars s x -> vars t x) /\ keeps s s t.
  Proof.
    intros c s W t Ws Ts Cl F H. destruct (run_ok io so po fuel dlaw Ed hash ids no_simplify nominal Hid Hh _ _ _ _ F _ _ (own s Ws Ts) H) as ((A1 & A2 & A3 & A4) & A5 & A6). split; [intros x Hx; apply A3; auto|].
    intros f w Sf Rf. rewrite A4 by auto. auto.
  Qed.

  (** ** C34: case selection *)
  Definition cases_on (x : string) (vs : list (sval (N:=N))) (f : nat -> sval -> command) : list case :=
    map (fun p => (matches x (snd p), f (fst p) (snd p))) (numbered vs).
  Lemma numbered_in : forall A (vs : list A) v, In v vs -> exists n, In (n, v) (numbered vs).
  Proof.
    intros A vs v Hv. unfold numbered. assert (L : List.length (seq 0 (List.length vs)) = List.length vs) by apply seq_length. revert L. generalize (seq 0 (List.length vs)). induction vs as [|u vs IH]; intros [|n ns] L; try discriminate; [destruct Hv..|]. destruct Hv as [->|Hv]; [exists n; now left|]. destruct (IH Hv ns) as (m & Hm); [simpl in L; lia|]. exists m. now right.
  Qed.
  Lemma numbered_iff : forall x (vs : list (sval (N:=N))) a, (exists v, In v vs /\ matches x v a) <-> exists p, In p (numbered vs) /\ matches x (snd p) a.
  Proof.
    intros x vs a. split.
    - intros (v & Hv & M). destruct (numbered_in _ vs v Hv) as (n & Hn). exists (n, v). auto.
    - intros ((n, v) & Hp & M). apply in_combine_r in Hp. eauto.
  Qed.
  Lemma matches_simple : forall x (v : sval (N:=N)), simple (ind (matches x v)).
  Proof. intros x [v|u|u]; [apply fm_simple|apply (simple_ind_var x (fun z => z = FStr u))|apply (simple_ind_var x (fun z => z = FNum (toR u)))]. Qed.
  Lemma surely_true : forall s, wf_spe s -> surely s (fun _ => True).
  Proof. intros s W w. rewrite (den_ext dlaw s _ (fun _ => 0)); [apply (law_const (den_kernel dlaw s W w))|]. intros a. apply ind_false. tauto. Qed.

  Theorem C34_mixture : forall envof envof' x vs f s t, wf_spe s -> typed nominal envof s -> vars s x -> Forall (case_ok nominal x) vs ->
    surely s (fun a => exists v, In v vs /\ matches x v a) ->
    interpret (Switch x vs f) (Some s) = Ok (Some t) ->
    exists kids, runs_of envof s (cases_on x vs f) kids /\
      ((forall q c d, In (q, c, d) kids -> wf_spe d /\ typed nominal envof' d) ->
       mixture_of s kids t /\ ((forall q c d, In (q, c, d) kids -> keeps s c d) -> keeps s s t)).
  Proof.
    intros envof envof' x vs f s t W T Vx Cs Ex H. cbn [Prog.interpret] in H. inv_bind H. rename r into evs. fold (numbered vs) in H.
    apply (block_mixture _ (numbered vs) (fun p => matches x (snd p)) (fun p => f (fst p) (snd p)) envof envof' s (fun _ => True) evs t); auto.
    - now apply surely_true.
    - intros; apply matches_simple.
    - intros w. specialize (Ex w). rewrite <- Ex. f_equal. extensionality a. apply ind_eq. apply not_iff_compat. symmetry. apply numbered_iff.
    - apply (switch_events_ok io nominal (vars s) (fun _ => True) x vs (fun p => f (fst p) (snd p)) evs); auto. apply seq_length.
  Qed.
  Theorem C34_exhaustive : forall envof x vs f s o tol, wf_spe s -> typed nominal envof s -> vars s x -> Forall (case_ok nominal x) vs ->
    (forall a : lg S, lclose a lzero = true -> Rabs (toP a - 1) <= tol) ->
    interpret (Switch x vs f) (Some s) = Ok o -> Rabs (Pr s (fun a => exists v, In v vs /\ matches x v a) - 1) <= tol.
  Proof.
    intros envof x vs f s o tol W T Vx Cs Hc H. cbn [Prog.interpret] in H. inv_bind H. rename r into evs. fold (numbered vs) in H.
    replace (Pr s (fun a => exists v, In v vs /\ matches x v a)) with (Pr s (fun a => exists p, In p (numbered vs) /\ matches x (snd p) a)) by (apply (den_ext dlaw s); intros a; apply ind_eq; symmetry; apply numbered_iff).
    apply (block_total _ (numbered vs) (fun p => matches x (snd p)) (fun p => f (fst p) (snd p)) envof s (fun _ => True) evs o tol); auto.
    - now apply surely_true.
    - apply (switch_events_ok io nominal (vars s) (fun _ => True) x vs (fun p => f (fst p) (snd p)) evs); auto. apply seq_length.
  Qed.
  Theorem C34_switch : forall x vs f s W t, wf_spe s -> typed nominal no_env s -> fits dlaw nominal (Switch x vs f) (vars s) (den s) W ->
    interpret (Switch x vs f) (Some s) = Ok (Some t) ->
    wf_spe t /\ (forall z, vars t z <-> W z) /\
    forall g w, simple g -> den t g w = sumR (map (fun q => den s (ind (fst q)) w * meaning (snd q) (restrict (den s) (fst q)) g w) (firsts (cases_on x vs f))).
  Proof.
    intros x vs f s W t Ws Ts F H. destruct (run_ok io so po fuel dlaw Ed hash ids no_simplify nominal Hid Hh _ _ _ _ F _ _ (own s Ws Ts) H) as ((A1 & A2 & A3 & A4) & _). split; auto. split; auto.
    intros g w Sg. rewrite A4 by auto. cbn [ProgSpec.meaning]. unfold total, cases_on. replace (map (fun p => (matches x (snd p), meaning (f (fst p) (snd p)))) (numbered vs)) with (map (fun p => (fst p, meaning (snd p))) (map (fun p : nat * sval => (matches x (snd p), f (fst p) (snd p))) (numbered vs))) by (rewrite map_map; reflexivity).
    rewrite firsts_map, map_map. reflexivity.
  Qed.
  (** every state selects exactly the first of the cases that match it *)
  Theorem C34_first : forall B (cases : list ((asg -> Prop) * B)) a n,
    (exists q, nth_error (firsts cases) n = Some q /\ fst q a) <->
    (exists q, nth_error cases n = Some q /\ fst q a) /\ forall m q, (m < n)%nat -> nth_error cases m = Some q -> ~ fst q a.
  Proof.
    clear. induction cases as [|p cases IH]; intros a n; cbn [firsts].
    - split; [intros (q & Hq & _); destruct n; discriminate|intros ((q & Hq & _) & _); destruct n; discriminate].
    - destruct n as [|n]; cbn [nth_error].
      + split; [intros K; split; [exact K|intros; lia]|tauto].
      + rewrite nth_error_map. specialize (IH a n). split.
        * intros (q & Hq & Pq). destruct (nth_error (firsts cases) n) as [q'|] eqn:E; [|discriminate]. injection Hq as <-. cbn [fst] in Pq. destruct Pq as (Np & Pq). destruct IH as (IH & _). destruct IH as (K1 & K2); eauto. split; auto.
          intros [|m] q Hm Hq; cbn in Hq; [injection Hq as <-; auto|]. apply (K2 m); auto. lia.
        * intros (K1 & K2). destruct IH as (_ & IH). destruct IH as (q & Hq & Pq); [split; auto; intros m q Hm Hq; apply (K2 (Datatypes.S m) q); auto; lia|]. rewrite Hq. cbn. eexists. split; [reflexivity|]. cbn. split; auto. apply (K2 0%nat p); auto. lia.
  Qed.

  (** ** C35: composition *)
  Theorem C35_sequence : forall c1 c2 o, interpret (Sequence [c1; c2]) o = (do o' <- interpret c1 o; interpret c2 o').
  Proof. intros. cbn [Prog.interpret runs]. destruct (interpret c1 o) as [o1|]; cbn [bind]; auto. destruct (interpret c2 o1); auto. Qed.
  Theorem C35_empty : forall o, interpret (Sequence []) o = Ok o /\ interpret Skip o = Ok o.
  Proof. auto. Qed.
  Lemma runs_app : forall A X (f : A -> X -> res X) l m s, runs f (l ++ m) s = (do s' <- runs f l s; runs f m s').
  Proof. induction l as [|a l IH]; intros m s; cbn [runs app]; auto. destruct (f a s); cbn [bind]; auto. Qed.
  Theorem C35_append : forall cs ds o, interpret (Sequence (cs ++ ds)) o = (do o' <- interpret (Sequence cs) o; interpret (Sequence ds) o').
  Proof. intros. cbn [Prog.interpret]. apply runs_app. Qed.
  (** sequences inside sequences, to any depth *)
  Fixpoint flatten (c : command) : list command :=
    match c with Sequence cs => flat_map flatten cs | _ => [c] end.
  Lemma command_ind' : forall (P : command -> Prop), (forall cs, Forall P cs -> P (Sequence cs)) -> (forall c, (forall cs, c <> Sequence cs) -> P c) -> forall c, P c.
  Proof.
    intros P Hs Ho. fix IH 1. intros c. destruct c as [| | | | | | | |cs]; try (apply Ho; intros; discriminate).
    apply Hs. induction cs as [|c cs IHc]; constructor; [apply IH|exact IHc].
  Qed.
  Theorem C35_nesting : forall c o, interpret c o = interpret (Sequence (flatten c)) o.
  Proof.
    induction c as [cs IH|c Nc] using command_ind'; intros o.
    - cbn [flatten]. revert o. induction IH as [|c cs Hc _ IHc]; intros o; [reflexivity|]. cbn [flat_map]. rewrite C35_append, <- Hc. cbn [Prog.interpret runs]. destruct (interpret c o) as [o'|]; cbn [bind]; auto.
      specialize (IHc o'). cbn [Prog.interpret] in IHc. exact IHc.
    - assert (E : flatten c = [c]) by (destruct c; auto; destruct (Nc cs); auto). rewrite E. change (interpret (Sequence [c]) o) with (do o' <- interpret c o; Ok o'). destruct (interpret c o); auto.
  Qed.
  Corollary C35_assoc : forall pre mid post o, interpret (Sequence (pre ++ [Sequence mid] ++ post)) o = interpret (Sequence (pre ++ mid ++ post)) o.
  Proof.
    intros pre mid post o. rewrite !C35_append. destruct (interpret (Sequence pre) o) as [o'|]; cbn [bind]; auto. rewrite !C35_append. rewrite (C35_nesting (Sequence [Sequence mid])). cbn [flatten flat_map]. rewrite app_nil_r.
    change (flat_map flatten mid) with (flatten (Sequence mid)). rewrite <- C35_nesting. reflexivity.
  Qed.
  Theorem C35_for_done : forall n0 n1 f o, (n1 <= n0)%Z -> interpret (For n0 n1 f) o = Ok o.
  Proof. intros n0 n1 f o H. cbn [Prog.interpret]. unfold range. replace (Z.to_nat (n1 - n0)) with 0%nat by lia. reflexivity. Qed.
  Lemma range_step : forall n0 n1, (n0 < n1)%Z -> range n0 n1 = n0 :: range (n0 + 1) n1.
  Proof.
    intros n0 n1 H. unfold range. replace (Z.to_nat (n1 - n0)) with (Datatypes.S (Z.to_nat (n1 - (n0 + 1)))) by lia. cbn [seq map]. f_equal; [lia|]. rewrite <- seq_shift, map_map. apply map_ext. intros k. lia.
  Qed.
  Theorem C35_for_step : forall n0 n1 f o, (n0 < n1)%Z -> interpret (For n0 n1 f) o = (do o' <- interpret (f n0) o; interpret (For (n0 + 1) n1 f) o').
  Proof. intros n0 n1 f o H. cbn [Prog.interpret]. rewrite range_step by auto. reflexivity. Qed.
  Theorem C35_for : forall n0 n1 f o, interpret (For n0 n1 f) o = interpret (Sequence (map (fun k => f (n0 + Z.of_nat k)%Z) (seq 0 (Z.to_nat (n1 - n0))))) o.
  Proof. intros. cbn [Prog.interpret]. unfold range. rewrite !runs_map. reflexivity. Qed.
  (** sampling adds an independent variable *)
  Theorem C35_sample : forall x d l s t, d x = Ok l -> wf_spe s -> wf_spe l ->
    interpret (Sample x d) None = Ok (Some l) /\
    (interpret (Sample x d) (Some s) = Ok (Some t) ->
     wf_spe t /\ (forall z, vars t z <-> vars s z \/ vars l z) /\ (forall z, ~ (vars s z /\ vars l z)) /\
     forall f w, den t f w = den s (fun a => den l f a) w).
  Proof.
    intros x d l s t Ed' Ws Wl. split; [cbn [Prog.interpret]; rewrite Ed'; reflexivity|]. intros H. cbn [Prog.interpret] in H. rewrite Ed' in H. cbn [bind] in H. inv_bind H. injection H as ->.
    destruct (mk_Product_ok dlaw [s; l] t) as (Wr & _ & Vr & _ & Ap & Dr); auto. split; auto. split; [|split].
    - intros z. rewrite Vr. split; [intros (c & [<-|[<-|[]]] & Hc); auto|intros [K|K]; eauto using in_eq, in_cons].
    - intros z (K1 & K2). inversion Ap as [|? ? Ap' _]; subst. inversion Ap' as [|? ? Ap2 _]; subst. apply (Ap2 z); auto.
    - intros f w. rewrite Dr. reflexivity.
  Qed.
  (** whole programs *)
  Theorem C35_program : forall c W s, fits dlaw nominal c (fun _ => False) start W -> interpret c None = Ok (Some s) ->
    wf_spe s /\ (forall x, vars s x <-> W x) /\ forall f w, simple f -> den s f w = meaning c start f w.
  Proof.
    intros c W s F H. destruct (run_ok io so po fuel dlaw Ed hash ids no_simplify nominal Hid Hh _ _ _ _ F None (Some s)) as ((A1 & A2 & A3 & A4) & _); auto. split; [auto|reflexivity].
  Qed.
  (** and the programs after them *)
  Theorem C35_after : forall c s W t, wf_spe s -> typed nominal no_env s -> fits dlaw nominal c (vars s) (den s) W -> interpret c (Some s) = Ok (Some t) ->
    wf_spe t /\ (forall x, vars t x <-> W x) /\ forall f w, simple f -> den t f w = meaning c (den s) f w.
  Proof.
    intros c s W t Ws Ts F H. destruct (run_ok io so po fuel dlaw Ed hash ids no_simplify nominal Hid Hh _ _ _ _ F _ _ (own s Ws Ts) H) as ((A1 & A2 & A3 & A4) & _). auto.
  Qed.
End Properties.
