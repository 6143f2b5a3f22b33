(** Every combination of comparisons can be made disjoint: the numbers that it names cut the line
    into finitely many pieces, and these decide it. *)
From Coq Require Import List Bool String Reals Lra Lia ZArith.
From Verif Require Import Base Num Sets SetSpec SetIv SetProofs SetOr SetOps SetAlg SetBuilt
  Poly Trans TransSpec TransFacts PolyProofs InvProofs InvMain EvProofs ArithProofs
  Dnf DnfSpec DnfProofs DnfUnion PropDnf Logs Spe SpeSpec SpeFacts SpeCons MemoProofs
  TotalSpec TotalEnds TotalSets TotalSolve TotalProofs PropTotal TotalUnion.
Import ListNotations.
Local Open Scope R_scope.

Section Grid.
  Context {N : numsys} (nominal : string -> bool) (cuts points : string -> R -> Prop).
  Notation tr := (tr N).
  Definition fin_list (a : ext (num N)) : list R := match a with Fin c => [toR c] | _ => [] end.
  Definition gridb (b : bset N) : list R :=
    match b with BInt i => fin_list (iv_a i) ++ fin_list (iv_b i) | BReal vs => flat_map fin_list vs | BNom _ _ => [] end.
  Definition gridl (l : tr) : list (string * R) :=
    match l with EBasic _ (TId x) v => map (pair x) (flat_map gridb (parts v)) | _ => [] end.
  Definition grid (e : tr) : list (string * R) := flat_map gridl (lits e).
  Definition ecuts (e : tr) (x : string) (r : R) : Prop := In (x, r) (grid e).
  Definition etests (e : tr) : list (asg -> Prop) :=
    flat_map (fun p => [is_below (fst p) (snd p); is_at (fst p) (snd p)]) (grid e) ++ map holds (lits e).

  Lemma fin_in : forall (a : ext (num N)) r, In r (fin_list a) <-> eR a = Fin r.
  Proof. intros [|c|] r; simpl; split; try discriminate; try tauto; [intros [<-|[]]; reflexivity|intros [= <-]; auto]. Qed.
  Lemma grid_tests : forall e x r, ecuts e x r -> In (is_below x r) (etests e) /\ In (is_at x r) (etests e).
  Proof. intros e x r H. split; apply in_app_iff; left; apply in_flat_map; exists (x, r); simpl; auto. Qed.
  Lemma lit_ends : forall e k x v, In (EBasic k (TId x) v) (lits e) -> ends (ecuts e x) (no_points x) v.
  Proof.
    intros e k x v Hl. assert (K : forall r b, In b (parts v) -> In r (gridb b) -> ecuts e x r).
    { intros r b Hb Hr. apply in_flat_map. exists (EBasic k (TId x) v). split; auto. cbn [gridl]. apply in_map. apply in_flat_map. eauto. }
    split.
    - intros i Hi r Hr. apply (K r (BInt i) Hi). cbn [gridb]. apply in_app_iff. rewrite !fin_in. exact Hr.
    - intros vs y r Hvs Hy Er. left. apply (K r (BReal vs) Hvs). cbn [gridb]. apply in_flat_map. exists y. rewrite fin_in. auto.
  Qed.
  Theorem direct_kept : forall e : tr, direct nominal cuts points e -> kept nominal (ecuts e) (etests e) e.
  Proof.
    intros e (G & F). split; auto. pose proof (gev_lits _ G) as Gl. rewrite Forall_forall in *. intros a Ha. split.
    - destruct (F a Ha) as (k & x & v & -> & K). exists x. split; [now apply Gl|]. exists k, v. split; auto. unfold fits. destruct (nominal x); auto. destruct K as (Nk & Rv & Hi & _). split; auto. split; auto. split; auto. now apply (lit_ends e k).
    - intros w w' _ _ A. apply (A (holds a)). apply in_app_iff. right. now apply in_map.
  Qed.
  Lemma grid_named : forall (e : tr) x r, direct nominal cuts points e -> ecuts e x r -> cuts x r \/ points x r.
  Proof.
    intros e x r (_ & F) H. apply in_flat_map in H. destruct H as (l & Hl & Hr). rewrite Forall_forall in F. destruct (F l Hl) as (k & y & v & -> & K). cbn [gridl] in Hr.
    apply in_map_iff in Hr. destruct Hr as (r' & E & Hr). injection E as -> ->. apply in_flat_map in Hr. destruct Hr as (b & Hb & Hr). destruct (nominal x).
    - exfalso. destruct K as [-> |K]; [destruct Hb|]. destruct v as [|[vs f| |]|]; try contradiction. destruct Hb as [<-|[]]. destruct Hr.
    - destruct K as (_ & Rv & _ & Ei & Ev). destruct b as [vs f|vs|i]; cbn [gridb] in Hr; [destruct Hr| |].
      + apply in_flat_map in Hr. destruct Hr as (y & Hy & Hr). apply fin_in in Hr. exact (Ev vs y r Hb Hy Hr).
      + left. apply (Ei i Hb r). apply in_app_iff in Hr. rewrite !fin_in in Hr. exact Hr.
  Qed.
  Lemma kept_direct : forall e d : tr, direct nominal cuts points e -> kept nominal (ecuts e) (etests e) d -> direct nominal (fun x r => cuts x r \/ points x r) no_points d.
  Proof.
    intros e d De (G & F). split; auto. eapply Forall_impl; [|exact F]. intros a ((x & _ & k & v & -> & K) & _). exists k, x, v. split; auto. unfold fits in K. destruct (nominal x); auto.
    destruct K as (Nk & Rv & Hi & Ei & Ev). split; auto. split; auto. split; auto. split.
    - intros i Hin r Hr. exact (grid_named e x r De (Ei i Hin r Hr)).
    - intros vs y r Hvs Hy Er. destruct (Ev vs y r Hvs Hy Er) as [H|[]]. left. exact (grid_named e x r De H).
  Qed.
End Grid.

Section Properties.
  Context {N : numsys} (io : iterorder N) (po : polyoracle N) (fuel : nat) (nominal : string -> bool) (cuts points : string -> R -> Prop).
  Notation tr := (tr N).
  (** Making the clauses of a normalised combination of comparisons disjoint comes to an end: some
      number of rounds is enough.  The result consists again of comparisons, with the numbers that
      the event names. *)
  Theorem C54_union : forall e d : tr, direct nominal cuts points e -> dnf_normalize io po fuel e = Ok (Some d) ->
    exists rounds, forall n, (rounds <= n)%nat -> exists u, disjoint_union io po fuel n d = Ok u /\ direct nominal (fun x r => cuts x r \/ points x r) (fun _ _ => False) u.
  Proof.
    intros e d De En. pose proof (direct_kept nominal cuts points e De) as Ke. destruct (normalize_kept io po fuel nominal (ecuts e) (etests e) e Ke) as (o & Eo & K). rewrite En in Eo. injection Eo as <-. destruct K as (Kd & _).
    exists (2 ^ List.length (etests e))%nat. intros n Hn.
    destruct (disjoint_union_total io po fuel nominal (ecuts e) (etests e) (fun x r _ H => grid_tests e x r H) n d Kd) as (u & Eu & Ku).
    - right. eapply Nat.le_trans; [apply mu_bound|exact Hn].
    - exists u. split; auto. exact (kept_direct nominal cuts points e u De Ku).
  Qed.
End Properties.
