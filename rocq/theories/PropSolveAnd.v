(** Property C56 for combinations of comparisons of functions of one variable. *)
From Coq Require Import List Bool String Reals Lra Lia ZArith PeanoNat.
From Verif Require Import Base Num Sets SetSpec SetIv SetProofs SetOr SetOps SetAlg SetBuilt
  Poly Trans TransSpec TransFacts PolyProofs InvProofs InvMain EvProofs ArithProofs PropTrans Spe SpeSpec SpeFacts SolveSpec InvTotal PropSolve AskSpec NarrowTotal FunTotal SolveAndSpec.
Import ListNotations.

Section C56.
  Context {N : numsys} (io : iterorder N) (po : polyoracle N) (fuel : nat).
  Notation pset := (pset N).
  Notation tr := (tr N).
  Notation yes := (PB (BReal [bit (N:=N) true])).
  Context (x : string).
  Notation pinned := (pinned po x).
  Notation settled := (settled po x).

  Lemma pand_plain : forall v w : pset, wf v -> wf w -> real_set v -> basic v -> basic w -> exists r, pand io v w = Ok r /\ wf r /\ real_set r /\ basic r.
  Proof.
    intros v w Wv Ww Rv [->|(b & ->)] [->|(c & ->)]; try (exists PEmpty; split; [reflexivity|]; split; [exact I|]; split; [exact I|now left]).
    destruct (and_bb_ok b c Wv Ww) as (r & E & (A & B & C) & Nu). exists r. split; [exact E|]. split; auto. split; auto. destruct r; [now left|right; eauto|destruct Nu].
  Qed.
  Lemma make_and_basic : forall l : list pset, l <> [] -> Forall (fun r => wf r /\ real_set r /\ basic r) l -> exists r, make_intersection io l = Ok r /\ wf r /\ real_set r /\ basic r.
  Proof.
    intros [|r l] Ne F; [tauto|]. unfold make_intersection. cbn [reduceM]. inversion F as [|? ? P F']; subst. clear Ne F. revert r P.
    induction F' as [|q l (Wq & Rq & Bq) F IH]; intros r (W & R & B); cbn [foldM]; [exists r; auto|]. destruct (pand_plain r q) as (p & E & P); auto. rewrite E. cbn [bind]. now apply IH.
  Qed.
  Lemma mapM_all : forall (P : tr -> Prop) (K : pset -> Prop) (f : tr -> res pset) l, All P l -> Forall (fun e => P e -> exists r, f e = Ok r /\ K r) l -> exists rs, mapM f l = Ok rs /\ Forall K rs /\ List.length rs = List.length l.
  Proof.
    intros P K f l A F. induction F as [|e l H F IH]; [exists []; cbn; auto|]. destruct A as (Pe & A). destruct (H Pe) as (r & E & Kr). destruct (IH A) as (rs & Es & Fs & L). exists (r :: rs). cbn [mapM]. rewrite E. cbn [bind]. rewrite Es. cbn [bind List.length]. auto.
  Qed.
  Lemma pinned_invert : forall e, 2 <= fuel -> pinned e -> exists r, invert io po fuel e yes = Ok r /\ wf r /\ real_set r /\ basic r.
  Proof.
    intros e Hf. induction e using tr_ind'; intros P; cbn [SolveAndSpec.pinned] in P; try contradiction.
    - destruct P as (Ch & Sx & Nt). destruct (chained_sort po _ Ch) as (q & j & t & u & Ko & E & Nj & Ct & Fv). injection E as -> -> ->. assert (Nq : q <> Many) by (destruct Ko; congruence).
      rewrite invert_basic by (auto; lia). destruct (invert_total io po fuel t q u Hf Ct Fv) as (r & E & W & R). exists r. split; auto. split; auto. split; auto. exact (narrow_basic io po fuel t q u r Nt Ct Nq Fv E).
    - destruct P as (Ne & A). cbn [invert range]. rewrite dispatch_bits by lia. destruct (mapM_all pinned (fun r => wf r /\ real_set r /\ basic r) (fun e => invert io po fuel e yes) l A H) as (rs & -> & Fr & L). cbn [bind]. apply make_and_basic; auto. intros ->. destruct l; [tauto|discriminate L].
  Qed.
  Lemma settled_invert : forall e, 2 <= fuel -> settled e -> exists r, invert io po fuel e yes = Ok r /\ wf r /\ real_set r.
  Proof.
    intros e Hf. induction e using tr_ind'; intros P; cbn [SolveAndSpec.settled] in P; (destruct P as [P|P]; [destruct (pinned_invert _ Hf P) as (r & E & W & R & _); eauto|]); try contradiction.
    - destruct P as (Ch & _). now apply chained_total.
    - destruct P as (Ne & A). cbn [invert range]. rewrite dispatch_bits by lia. destruct (mapM_all settled (fun r => wf r /\ real_set r) (fun e => invert io po fuel e yes) l A H) as (rs & -> & Fr & L). cbn [bind]. apply make_union_total; auto. intros ->. destruct l; [tauto|discriminate L].
  Qed.
  (** they are events, and about x *)
  Lemma only_list : forall (l : list tr), l <> [] -> Forall (fun e => In x (symbols e) /\ only x e) l -> In x (sunions (map symbols l)) /\ forall y, In y (sunions (map symbols l)) -> y = x.
  Proof.
    intros l Ne F. split.
    - destruct F as [|e l (He & _) F]; [tauto|]. apply in_sunions. exists (symbols e). split; [now left|exact He].
    - intros y Hy. apply in_sunions in Hy. destruct Hy as (m & Hm & Hy). apply in_map_iff in Hm. destruct Hm as (e & <- & He). rewrite Forall_forall in F. now apply (F e He).
  Qed.
  Lemma All_Forall : forall (P Q : tr -> Prop) l, All P l -> Forall (fun e => P e -> Q e) l -> Forall Q l.
  Proof. intros P Q l A F. induction F as [|e l H F IH]; constructor; destruct A; auto. Qed.
  Lemma all_event : forall l (e : tr), Forall (fun e => gev e /\ In x (symbols e) /\ only x e) l -> l <> [] -> (e = EAnd l \/ e = EOr l) -> gev e /\ In x (symbols e) /\ only x e.
  Proof.
    intros l e F Ne E. assert (G : Forall (gev (N:=N)) l) by (eapply Forall_impl; [|exact F]; tauto). destruct (only_list l Ne) as (A & B); [eapply Forall_impl; [|exact F]; tauto|].
    destruct E as [-> | ->]; (split; [split; [split; [exact Ne|now apply gev_list]|reflexivity]|split; [exact A|exact B]]).
  Qed.
  Lemma basic_event : forall e : tr, chained po e -> symbols e = [x] -> gev e /\ In x (symbols e) /\ only x e.
  Proof. intros e C Sx. destruct (chained_good po e C) as (G & _). split; auto. unfold only. rewrite Sx. split; [now left|]. intros y [<-|[]]. reflexivity. Qed.
  Lemma pinned_event : forall e, pinned e -> gev e /\ In x (symbols e) /\ only x e.
  Proof.
    intros e. induction e using tr_ind'; intros P; cbn [SolveAndSpec.pinned] in P; try contradiction.
    - destruct P as (Ch & Sx & _). now apply basic_event.
    - destruct P as (Ne & A). apply (all_event l); auto. now apply (All_Forall pinned).
  Qed.
  Lemma settled_event : forall e, settled e -> gev e /\ In x (symbols e) /\ only x e.
  Proof.
    intros e. induction e using tr_ind'; intros P; cbn [SolveAndSpec.settled] in P; (destruct P as [P|P]; [now apply pinned_event|]); try contradiction.
    - destruct P as (Ch & Sx). now apply basic_event.
    - destruct P as (Ne & A). apply (all_event l); auto. now apply (All_Forall settled).
  Qed.

  Lemma symbols_NoDup : forall e : tr, NoDup (symbols e).
  Proof. intros e. induction e using tr_ind'; cbn [symbols]; auto; try (unfold sunions; apply dedup_string_NoDup). constructor; [intros []|constructor]. Qed.
  (** Disjunctions of comparisons of functions of one variable and of conjunctions of comparisons of
      one-to-one functions of it are solved, and the set returned holds the numbers at which the
      event is true. *)
  Theorem C56_combination_solved_partial : forall e : tr, 2 <= fuel -> settled e ->
    exists r, solve io po fuel e = Ok r /\ wf r /\ real_set r /\ forall w, regular false e w -> (fm (w x) r <-> holds e w).
  Proof.
    intros e Hf P. destruct (settled_event e P) as (G & Hx & On).
    assert (K : exists r, solve io po fuel e = Ok r /\ wf r /\ real_set r).
    { unfold solve. destruct (id_values e) as [v|] eqn:Ei.
      - destruct e; try discriminate Ei. destruct e; try discriminate Ei. cbn in Ei. injection Ei as <-. match goal with |- exists r, Ok ?v = _ /\ _ => assert (Ch : exists y, chained po (EBasic k (TId y) v)) by (destruct P as [(Ch & _)|(Ch & _)]; eauto) end. destruct Ch as (y & Ch). destruct (chained_fit po _ Ch) as (q & j & t & u & E & _ & _ & Fv). injection E as _ _ ->. exists u. split; auto. now apply (fit_wf q).
      - assert (L : List.length (symbols e) <= 1).
        { assert (Nd : NoDup (symbols e)) by apply symbols_NoDup. destruct (symbols e) as [|a [|b m]] eqn:Es; cbn; try lia. exfalso. inversion Nd as [|? ? Ka _]; subst. apply Ka. left. rewrite (On a), (On b); auto; rewrite Es; cbn; auto. }
        replace (Nat.ltb 1 _) with false by (symmetry; apply Nat.ltb_ge; exact L). now apply settled_invert. }
    destruct K as (r & E & W & R). exists r. split; auto. split; auto. split; auto. now apply (C11_solve_exact io po fuel x e r false G On E).
  Qed.
End C56.
