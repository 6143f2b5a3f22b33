(** Property C40: expressions written as source programs. *)
From Coq Require Import List Bool String Reals Lra Lia ZArith QArith Qreals FunctionalExtensionality Classical.
From Verif Require Import Base Num Sets SetSpec Poly Trans TransSpec TransFacts Dnf DnfSpec Logs Spe SpeSpec SpeFacts SpeOps SpeEq MemoProofs CondProofs Prog ProgSpec ProgProofs PropProg SourceKernel
  NormSorts CondTypes SpeRect PropSpe SpeCons LeafEvents SampleSim SimplifyProofs Source SourceVisit Render RenderSpec RenderCode RenderFits RenderVisit
  TotalSpec ReturnSpec CompileSpec CompileProofs PropCompile RenderRuns.
Import ListNotations.
Local Open Scope R_scope.

Section Properties.
  Context {N : numsys} {S : logsys} {D : distsys N S} (io : iterorder N) (so : strorder) (po : polyoracle N) (fuel : nat).
  Context (dlaw : dist D -> (fval -> R) -> R) (Ed : eq_dist dlaw).
  Context (hash : spe D -> Z) (ids : spe D -> spe D -> nat) (no_simplify : bool) (nominal : string -> bool).
  Notation tr := (tr N).
  Notation spe := (spe D).
  Notation env := (env (N:=N)).
  Notation expr := (expr N).
  Notation stmt := (stmt N).
  Notation command := (command (N:=N) (D:=D)).
  Context (isdist : string -> bool) (unparse : expr -> expr -> string) (call : string -> list (pyval (N:=N)) -> list (string * pyval (N:=N)) -> res (pyval (N:=N))).
  Context (deval : env -> expr -> res (distribution (N:=N) (D:=D))) (aeval : env -> expr -> res (assignment (N:=N))).
  Context (is_e : num N -> bool) (num_text : num N -> string) (dist_name : dist D -> string) (dist_kwds : dist D -> list (string * num N)) (lexp : lg S -> Q).
  Notation peval := (peval io po fuel call).
  Notation command_of := (command_of io po fuel call deval aeval).
  Notation translate := (translate isdist unparse).
  Notation the_command := (the_command io po fuel call deval aeval).
  Notation module_env := (module_env io po fuel call).
  Notation interpret := (interpret io so po fuel hash ids no_simplify).
  Notation meaning := (meaning dlaw).
  Notation fits := (fits dlaw nominal).
  Notation den := (den dlaw).
  Notation wf_spe := (wf_spe dlaw).
  Notation wf_leaf := (wf_leaf dlaw).
  Notation renderable := (renderable io po fuel isdist call deval dlaw is_e num_text dist_name dist_kwds).
  Notation render_sppl := (render_sppl is_e num_text dist_name dist_kwds lexp).
  Notation typed := (CondTypes.typed (N:=N) (S:=S) (D:=D) nominal).
  Notation branch_list := (list (string * list (string * Q))).

  Lemma renderable_plain : forall s, renderable s -> forall x, vars s x -> plain_name x.
  Proof.
    induction s using spe_ind'; intros Re z Hz.
    - now apply Re.
    - destruct Re.
    - cbn in Hz. subst. exact Re.
    - destruct l as [|c l]; [destruct Hz|]. apply (H c (or_introl eq_refl)); [apply Re|exact Hz].
    - change (pvars l z) in Hz. apply pvars_in in Hz. destruct Hz as (c & Hc & Hz). apply (H c Hc); auto. exact (All_In _ _ _ _ Re Hc).
  Qed.

  (** ** The branch variables *)
  Lemma nodup_numbered : forall k (bs : branch_list), numbered_from k bs -> NoDup (map fst bs).
  Proof. intros k bs E. rewrite E. apply FinFun.Injective_map_NoDup; [exact branch_var_inj|apply seq_NoDup]. Qed.
  Definition draws (bs : branch_list) : list command := map (fun b => Sample (fst b) (choice (snd b))) bs.
  Lemma mean_range : forall (bs : branch_list) f g a, NoDup (map fst bs) -> (forall b, in_range bs b -> f b = g b) -> mean bs f a = mean bs g a.
  Proof.
    enough (H : forall (bs : branch_list) f g a, NoDup (map fst bs) -> (forall b, in_range bs b -> (forall x, ~ In x (map fst bs) -> b x = a x) -> f b = g b) -> mean bs f a = mean bs g a) by (intros; apply H; auto).
    induction bs as [|(x, ws) bs IH]; intros f g a Nd H; cbn [mean fst snd].
    - apply H; [constructor|auto].
    - inversion Nd as [|? ? Nx Nd']; subst. unfold nom_law. f_equal. apply map_ext_in. intros p Hp. f_equal. apply IH; auto. intros b Rb Ob. apply H.
      + constructor; auto. exists p. split; auto. cbn [fst]. rewrite Ob by auto. apply upd_here.
      + intros z Hz. rewrite Ob by (intros K; apply Hz; now right). unfold upd. destruct (String.eqb_spec x z) as [->|]; [exfalso; apply Hz; now left|reflexivity].
  Qed.
  Lemma draws_fit : forall (bs : branch_list) V K W, Forall (fun b => wf_leaf (NominalLeaf (fst b) (snd b)) /\ nominal (fst b) = true) bs -> (forall z, W z <-> V z \/ In z (map fst bs)) ->
    fits (Sequence (draws bs)) V K W /\ forall f w, meaning (Sequence (draws bs)) K f w = K (mean bs f) w.
  Proof.
    induction bs as [|(x, ws) bs IH]; intros V K W H Hw.
    - split; [|reflexivity]. apply (fits_same dlaw nominal _ V K V); [constructor|]. intros z. rewrite Hw. cbn. tauto.
    - inversion H as [|? ? (W1 & N1) H2]; subst. cbn [fst snd] in *. pose proof (choice_ok dlaw x ws W1) as Ec.
      destruct (IH (fun z => V z \/ z = x) (meaning (Sample x (choice ws)) K) W H2) as (F & M); [intros z; rewrite Hw; cbn; intuition auto|]. split.
      + cbn [draws map fst snd]. eapply fits_cons; [|exact F]. apply (fits_sample dlaw nominal x _ (NominalLeaf x ws)); [exact Ec| |reflexivity]. split; [exact W1|]. split; [split; [exact N1|exact Logic.I]|]. intros z. cbn. intuition auto.
      + intros f w. change (meaning (Sequence (draws ((x, ws) :: bs))) K f w) with (meaning (Sequence (draws bs)) (meaning (Sample x (choice ws)) K) f w). rewrite M. cbn [ProgSpec.meaning]. rewrite Ec. reflexivity.
  Qed.

  (** ** The translation *)
  Context (Hchoice : isdist "choice" = true) (Hdev : forall g ws, NoDup (map fst ws) -> deval g (choice_expr ws) = Ok (choice ws)).
  Context (Hl : forall w, Q2R (lexp w) = toP w) (Hn : forall n, nominal (branch_var n) = true).
  Notation visit := (visit isdist unparse).
  Lemma choices_visits : forall n (bs : branch_list), NoDup (map fst bs) ->
    visits_to (fun x => In x (map fst bs)) (each (visit (1 + n)) (map (fun b => render_sppl_choice (XName (fst b)) (snd b)) bs)) (map (fun b => ISample (XName (fst b)) (choice_expr (snd b))) bs).
  Proof.
    intros n. induction bs as [|(x, ws) bs IH]; intros Nd; cbn [map fst snd].
    - intros st (A & _). exists st. split; [reflexivity|]. unfold done. repeat split; auto; try (intros x []). exists []. now rewrite app_nil_r.
    - inversion Nd as [|? ? Nx Nd']; subst. apply (visits_ext (fun z => x = z \/ In z (map fst bs))); [reflexivity|].
      apply (visits_app _ _ _ [render_sppl_choice (XName x) ws] _ [ISample (XName x) (choice_expr ws)]); [intros z <-; exact Nx| |auto]. intros st Hs. rewrite each_one. revert st Hs.
      change (visits_to (eq x) (visit (1 + n) (render_sppl_choice (XName x) ws)) [ISample (XName x) (choice_expr ws)]). unfold render_sppl_choice. rewrite <- (rewrite_choice ws) at 2. apply sample_visit.
      + reflexivity.
      + unfold choice_expr. cbn [names filter]. rewrite Hchoice. discriminate.
      + eexists _, _, _. split; [reflexivity|exact Hchoice].
  Qed.
  Lemma draws_run : forall g (bs : branch_list), Forall (fun b => NoDup (map fst (snd b))) bs -> binds g (fun x => In x (map fst bs)) -> mapM (command_of g) (map (fun b => ISample (XName (fst b)) (choice_expr (snd b))) bs) = Ok (draws bs).
  Proof.
    intros g bs. induction bs as [|(x, ws) bs IH]; intros H Hg; [reflexivity|]. inversion H; subst. cbn [map fst snd mapM] in *. rewrite (choice_runs io po fuel call deval aeval Hdev) by (auto; intros z <-; apply Hg; now left). cbn [bind]. rewrite IH by (auto; intros z Hz; apply Hg; now right). reflexivity.
  Qed.
  Lemma env_vars : forall st xs, vs_constants st = [] -> vs_variables st = map (fun x => (x, None)) xs -> exists g, module_env st = Ok g /\ binds g (fun x => In x xs).
  Proof.
    intros st xs Ec Ev. unfold Source.module_env. rewrite Ec, Ev. cbn [run_constants bind].
    set (vs := flat_map _ _). assert (Evs : vs = map (fun x => (x, PTr (TId x))) xs) by (unfold vs; clear; induction xs as [|x xs IH]; [reflexivity|]; cbn; now rewrite IH).
    exists (rev vs ++ [])%list. split.
    - generalize (rev vs ++ [])%list. clear. induction xs as [|x xs IH]; intros g; [reflexivity|]. cbn [map foldM snd bind]. apply IH.
    - intros x Hx. rewrite app_nil_r, Evs, <- map_rev. apply in_rev in Hx. revert Hx. generalize (rev xs). clear. induction l as [|y l IH]; [intros []|]; intros [Hx|Hx]; unfold Source.lookup in *; cbn [map find fst].
      + subst. now rewrite String.eqb_refl.
      + destruct (String.eqb_spec x y) as [<-|]; [reflexivity|]. now apply IH.
  Qed.

  Lemma draws_good : forall s cs T (bs : branch_list), coded dlaw nominal lexp 0 s cs T bs -> numbered_from 0 bs ->
    fair (meaning (Sequence (draws bs)) start) /\ live (meaning (Sequence (draws bs)) start) /\ sure (meaning (Sequence (draws bs)) start) (in_range bs).
  Proof.
    intros s cs T bs C Nb. pose proof (nodup_numbered 0 bs Nb) as Nd. pose proof (proj1 (coded_weights dlaw nominal lexp Hl) _ _ _ _ _ C) as Wb.
    assert (Wn : Forall (fun b => wf_leaf (NominalLeaf (fst b) (snd b)) /\ nominal (fst b) = true) bs).
    { rewrite Forall_forall in *. intros b Hb. split; auto. destruct (names_range bs 0 (fst b) Nb (in_map fst _ _ Hb)) as (j & -> & _). apply Hn. }
    destruct (draws_fit bs (fun _ => False) start (fun x => In x (map fst bs)) Wn) as (F1 & M1); [tauto|].
    assert (One : forall w, mean bs (fun _ => 1) w = 1) by (intros w; rewrite (mean_const dlaw); auto; intros x Hx a v; reflexivity).
    split; [|split].
    - apply (fair_agree (fun f w => mean bs f w)); [|intros f w _; apply M1]. intros w. split; [|left; apply One]. constructor; intros.
      + apply mean_plus.
      + apply (mean_factor bs f (fun _ => c)). intros x Hx a v. reflexivity.
      + clear -Wb H0. revert w. induction Wb as [|b bs (_ & Wp & _) Wb IH]; intros w; cbn [mean]; auto. unfold nom_law. apply sumR_nonneg. apply Forall_map, Forall_forall. intros p Hp. apply Rmult_le_pos; auto. rewrite Forall_forall in Wp. rewrite <- RMicromega.Q2R_0. apply Qle_Rle. now apply Wp.
    - exists w0. rewrite M1. apply One.
    - intros w. rewrite M1. unfold start. transitivity (mean bs (fun _ => 0) w); [|apply (mean_const dlaw); auto; intros x Hx a v; reflexivity]. apply mean_range; auto. intros b Hb. apply ind_false. tauto.
  Qed.
  Lemma program_fits : forall s cs T bs, coded dlaw nominal lexp 0 s cs T bs -> numbered_from 0 bs -> (forall x, vars s x -> plain_name x) ->
    let c := Sequence (draws bs ++ cs) in
    fits c (fun _ => False) start (fun x => vars s x \/ In x (map fst bs)) /\ forall f w, bnd f -> reads (vars s) f -> meaning c start f w = den s f w.
  Proof.
    intros s cs T bs C Nb Pl. pose proof (nodup_numbered 0 bs Nb) as Nd. pose proof (proj1 (coded_weights dlaw nominal lexp Hl) _ _ _ _ _ C) as Wb.
    assert (Wn : Forall (fun b => wf_leaf (NominalLeaf (fst b) (snd b)) /\ nominal (fst b) = true) bs).
    { rewrite Forall_forall in *. intros b Hb. split; auto. destruct (names_range bs 0 (fst b) Nb (in_map fst _ _ Hb)) as (j & -> & _). apply Hn. }
    destruct (draws_fit bs (fun _ => False) start (fun x => In x (map fst bs)) Wn) as (F1 & M1); [tauto|].
    destruct (draws_good _ _ _ _ C Nb) as (Fk & _ & Su).
    destruct (proj1 (coded_fits dlaw nominal lexp Hn) _ _ _ _ _ C (meaning (Sequence (draws bs)) start) (fun x => In x (map fst bs)) (fun x => vars s x \/ In x (map fst bs)) Fk Su) as (F2 & M2); [auto|tauto|].
    split; [eapply fits_app; eauto|]. intros f w Hf Rf. rewrite meaning_app, M2 by auto. rewrite M1. unfold start. apply (proj1 (coded_mean dlaw nominal lexp Hl) _ _ _ _ _ C); auto.
    intros x Hx a v. apply Rf. intros z Hz. unfold upd. destruct (String.eqb_spec x z) as [<-|]; [|reflexivity]. exfalso. destruct (names_range bs 0 x Nb Hx) as (j & -> & _). apply Pl in Hz. now apply not_plain in Hz.
  Qed.

  (** the same for the compilation *)
  Lemma draws_compile : forall derived cuts (bs : branch_list) V K W m, (forall n, derived (branch_var n) = false) -> (forall z, In z (map fst bs) -> exists n, z = branch_var n) -> Forall (fun b => wf_leaf (NominalLeaf (fst b) (snd b)) /\ nominal (fst b) = true) bs -> NoDup (map fst bs) -> (forall z, In z (map fst bs) -> ~ V z) -> (forall z, W z <-> V z \/ In z (map fst bs)) ->
    exists m', compiles dlaw nominal derived cuts (Sequence (draws bs)) V K m W m'.
  Proof.
    intros derived cuts bs V K W m Hbr. revert V K W m. induction bs as [|(x, ws) bs IH]; intros V K W m Hx H Nd Nv Hw.
    - exists m. apply (compiles_same dlaw nominal derived cuts _ V K m V W); [constructor|]. intros z. rewrite Hw. cbn. tauto.
    - inversion H as [|? ? (W1 & N1) H2]; subst. inversion Nd as [|? ? Nx Nd']; subst. cbn [fst snd map] in *.
      destruct (sample_compiles dlaw nominal derived cuts x (choice ws) (NominalLeaf x ws) V (fun z => V z \/ z = x) K m (choice_ok dlaw x ws W1)) as (m1 & C1 & _); [|apply Nv; now left|reflexivity|].
      + split; [|split; [destruct (Hx x (or_introl eq_refl)) as (n & ->); apply Hbr|split; [left; reflexivity|split; [exact N1|exact Logic.I]]]]. split; [exact W1|]. split; [split; [exact N1|exact Logic.I]|]. intros z. cbn. intuition auto.
      + destruct (IH (fun z => V z \/ z = x) (meaning (Sample x (choice ws)) K) W m1 (fun z Hz => Hx z (or_intror Hz)) H2 Nd') as (m2 & C2); [|intros z; rewrite Hw; cbn; intuition auto|].
        * intros z Hz [K'|K']; [exact (Nv z (or_intror Hz) K')|subst; contradiction].
        * exists m2. eapply compiles_cons; eauto.
  Qed.
  Lemma program_compiles : forall derived cuts s cs T bs, (forall n, derived (branch_var n) = false) -> coded dlaw nominal lexp 0 s cs T bs -> numbered_from 0 bs -> (forall x, vars s x -> plain_name x) -> flat derived cuts s ->
    exists m, compiles dlaw nominal derived cuts (Sequence (draws bs ++ cs)) (fun _ => False) start None (fun x => vars s x \/ In x (map fst bs)) m.
  Proof.
    intros derived cuts s cs T bs Hbr C Nb Pl Fl. pose proof (nodup_numbered 0 bs Nb) as Nd. pose proof (proj1 (coded_weights dlaw nominal lexp Hl) _ _ _ _ _ C) as Wb.
    assert (Wn : Forall (fun b => wf_leaf (NominalLeaf (fst b) (snd b)) /\ nominal (fst b) = true) bs).
    { rewrite Forall_forall in *. intros b Hb. split; auto. destruct (names_range bs 0 (fst b) Nb (in_map fst _ _ Hb)) as (j & -> & _). apply Hn. }
    destruct (draws_compile derived cuts bs (fun _ => False) start (fun x => In x (map fst bs)) None Hbr (fun x Hx => match names_range bs 0 x Nb Hx with ex_intro _ j (conj E _) => ex_intro _ j E end) Wn Nd) as (m1 & C1); [tauto|tauto|].
    destruct (draws_good _ _ _ _ C Nb) as (Fk & Ms & Su).
    destruct (proj1 (coded_compiles dlaw nominal derived lexp cuts Hn Hbr) _ _ _ _ _ C Fl (meaning (Sequence (draws bs)) start) (fun x => In x (map fst bs)) (fun x => vars s x \/ In x (map fst bs)) m1 Fk) as (m2 & C2 & _); auto; [|tauto|].
    - intros x Hx K. destruct (names_range bs 0 x Nb K) as (j & -> & _). apply Pl in Hx. now apply not_plain in Hx.
    - exists m2. eapply compiles_app; eauto.
  Qed.

  Context (Hid : forall s, distinct (ids s) s).
  Context (Hh : no_simplify = true \/ forall a b, is_leaf a = true -> is_leaf b = true -> hash a = hash b -> speqb (D:=D) a b = true).
  (** the program and its translation *)
  Lemma program_of : forall s, wf_spe s -> renderable s -> typed no_env s ->
    exists p bs m, render_sppl s = Ok p /\ numbered_from 0 bs /\ forall n, (m <= n)%nat -> exists st is g cs T, translate n p = Ok (st, is) /\ module_env st = Ok g /\ the_command g is = Ok (Sequence (draws bs ++ cs)) /\ coded dlaw nominal lexp 0 s cs T bs.
  Proof.
    intros s W Re T. pose proof (renderable_plain s Re) as Pl. destruct (text_good io po fuel isdist unparse call deval aeval dlaw nominal is_e num_text dist_name dist_kwds lexp Hchoice Hdev s W Re T []) as (body & bs & is & R & Nb & (B1 & B2 & B3 & m & B4) & C). cbn [app List.length] in *.
    pose proof (nodup_numbered 0 bs Nb) as Nd.
    exists (SImport "from sppl.distributions import *" :: map (fun b => render_sppl_choice (XName (fst b)) (snd b)) bs ++ body)%list, bs, (1 + m)%nat. split; [unfold Render.render_sppl; rewrite R; reflexivity|]. split; [exact Nb|]. intros [|n] Hm; [lia|].
    destruct (visits_app (fun x => In x (map fst bs)) (vars s) (visit (1 + n)) _ _ _ _ (fun x Hx Hv => match names_range bs 0 x Nb Hx with ex_intro _ j (conj E _) => not_plain j (eq_ind x plain_name (Pl x Hv) _ E) end) (choices_visits n bs Nd) (B4 (1 + n)%nat ltac:(lia))
      (vs_with_import "from sppl.distributions import *" (vs_with_first false vs_init))) as (st & V & D1 & D2 & D3 & (xs & D4) & D5 & D6).
    { split; [reflexivity|]. split; [reflexivity|]. intros x _. reflexivity. }
    cbn [vs_variables vs_with_import vs_with_first vs_init app vs_constants] in D3, D4.
    destruct (env_vars st xs D3 D4) as (g & Eg & Bg).
    assert (Bg' : binds g (fun x => In x (map fst bs) \/ vars s x)).
    { intros x Hx. apply Bg. specialize (D5 x Hx). unfold known in D5. rewrite D4, map_map in D5. cbn [fst] in D5. rewrite map_id in D5. apply inb_true in D5. destruct D5 as (y & Hy & E). apply String.eqb_eq in E. now subst. }
    destruct (C g) as (cs & K & Mc & Co); [intros x Hx; apply Bg'; tauto|].
    pose proof (proj1 (coded_weights dlaw nominal lexp Hl) _ _ _ _ _ Co) as Wb.
    eexists st, _, g, cs, K. split; [|split; [exact Eg|split; [|exact Co]]].
    - unfold Source.translate, block. cbn [vs_first vs_init]. rewrite orb_true_r. cbn [each]. change (visit (Datatypes.S n) (SImport "from sppl.distributions import *") (vs_with_first false vs_init)) with (Ok (vs_with_import "from sppl.distributions import *" (vs_with_first false (@vs_init N)), @nil (item N))). cbn [bind]. change (1 + n)%nat with (Datatypes.S n) in V. rewrite V. reflexivity.
    - cbn [Source.the_command Source.command_of app]. erewrite (mapM_app _ _ (command_of g)); [reflexivity| |exact Mc]. apply draws_run; [|intros x Hx; apply Bg'; auto]. rewrite Forall_forall in *. intros b Hb. apply (Wb b Hb).
  Qed.
  (** what any result of it is *)
  Lemma result_of : forall rounds s cs T bs t, wf_spe s -> renderable s -> numbered_from 0 bs -> coded dlaw nominal lexp 0 s cs T bs -> Prog.interpret io so po rounds hash ids no_simplify (Sequence (draws bs ++ cs)) None = Ok t ->
    exists t', t = Some t' /\ wf_spe t' /\ (forall x, vars t' x <-> vars s x \/ exists j, (j < List.length bs)%nat /\ x = branch_var j) /\ forall f w, simple f -> reads (vars s) f -> den t' f w = den s f w.
  Proof.
    intros rounds s cs K bs o W Re Nb Co Hi. pose proof (renderable_plain s Re) as Pl. destruct (program_fits s cs K bs Co Nb Pl) as (F & M).
    destruct (run_ok io so po rounds dlaw Ed hash ids no_simplify nominal Hid Hh _ _ _ _ F None o) as (St & _); auto; [split; [auto|reflexivity]|].
    destruct o as [t|]; [|destruct St as (St & _); destruct (vars_some dlaw s W) as (x & Hx); exfalso; apply (St x); auto].
    exists t. split; auto. destruct (C35_program io so po rounds dlaw Ed hash ids no_simplify nominal Hid Hh _ _ t F Hi) as (A1 & A2 & A3). split; auto. split.
    - intros x. rewrite A2. split; (intros [Hx|Hx]; [auto|right]).
      + destruct (names_range bs 0 x Nb Hx) as (j & -> & Hj). exists j. split; auto. lia.
      + destruct Hx as (j & Hj & ->). rewrite Nb. apply in_map, in_seq. lia.
    - intros f w Hf Rf. rewrite A3 by auto. apply M; auto. now apply simple_bnd.
  Qed.
  (** ** C40: the program of an expression *)
  (** The program is written, and translated with enough fuel; if the command runs, the result has the variables of the
      expression and one for each sum, and gives the variables of the expression its distribution. *)
  Theorem C40_roundtrip_partial : forall s, wf_spe s -> renderable s -> typed no_env s ->
    exists p k m, render_sppl s = Ok p /\ forall n, (m <= n)%nat -> exists st is g c, translate n p = Ok (st, is) /\ module_env st = Ok g /\ the_command g is = Ok c /\
      (forall o, interpret c None = Ok o -> exists t, o = Some t /\ wf_spe t /\ (forall x, vars t x <-> vars s x \/ exists j, (j < k)%nat /\ x = branch_var j) /\
        forall f w, simple f -> reads (vars s) f -> den t f w = den s f w).
  Proof.
    intros s W Re T. destruct (program_of s W Re T) as (p & bs & m & R & Nb & K). exists p, (List.length bs), m. split; auto. intros n Hm. destruct (K n Hm) as (st & is & g & cs & L & K1 & K2 & K3 & Co).
    exists st, is, g, (Sequence (draws bs ++ cs)). repeat (split; auto). intros o Hi. now apply (result_of fuel s cs L).
  Qed.
  (** The command runs, given enough rounds for the solver. *)
  Theorem C40_runs_partial : forall derived cuts s, (forall n, derived (branch_var n) = false) -> wf_spe s -> renderable s -> typed no_env s -> flat derived cuts s ->
    exists p k m, render_sppl s = Ok p /\ forall n, (m <= n)%nat -> exists st is g c rounds, translate n p = Ok (st, is) /\ module_env st = Ok g /\ the_command g is = Ok c /\
      forall fuel', (rounds <= fuel')%nat -> exists t, Prog.interpret io so po fuel' hash ids no_simplify c None = Ok (Some t) /\
        wf_spe t /\ (forall x, vars t x <-> vars s x \/ exists j, (j < k)%nat /\ x = branch_var j) /\
        forall f w, simple f -> reads (vars s) f -> den t f w = den s f w.
  Proof.
    intros derived cuts s Hbr W Re T Fl. destruct (program_of s W Re T) as (p & bs & m & R & Nb & K). exists p, (List.length bs), m. split; auto. intros n Hm. destruct (K n Hm) as (st & is & g & cs & L & K1 & K2 & K3 & Co).
    destruct (program_compiles derived cuts s cs L bs Hbr Co Nb (renderable_plain s Re) Fl) as (m' & C).
    destruct (whole io so po dlaw Ed hash ids no_simplify nominal derived Hid Hh cuts _ _ _ C) as (rounds & Run).
    exists st, is, g, (Sequence (draws bs ++ cs)), rounds. repeat (split; auto). intros fuel' Hf. destruct (Run fuel' Hf) as (o & Eo & _). destruct (result_of fuel' s cs L bs o W Re Nb Co Eo) as (t & -> & A & B & E). exists t. auto.
  Qed.
End Properties.
