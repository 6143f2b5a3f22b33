(** Cases for the theorems on hashes, and equal objects whose hashes differ (C52). *)
From Coq Require Import List Bool String ZArith Reals QArith Qreals Lra Lia.
From Verif Require Import Base Num Sets SetSpec SetProofs SetBuilt Poly Trans TransSpec Dnf Logs Spe SpeSpec Uniform Instances SpeEx Hash HashSpec PropHash.
Import ListNotations.
Local Open Scope string_scope.
Local Open Scope list_scope.

(** ** A hash: polynomials over the parts *)
Fixpoint text_hash (s : string) : Z := match s with EmptyString => 7%Z | String c s => (31 * text_hash s + Z.of_nat (Ascii.nat_of_ascii c))%Z end.
Definition tuple_hash (c : string) (l : list Z) : Z := fold_left (fun h x => 1000003 * h + x)%Z l (text_hash c).
Definition frac_hash (q : Q) : Z := (Qnum (Qred q) * 5 + Zpos (Qden (Qred q)))%Z.
Lemma frac_hash_ok : forall p q, (p == q)%Q -> frac_hash p = frac_hash q.
Proof. intros p q E. unfold frac_hash. now rewrite (Qred_complete p q E). Qed.
Definition hashes (D : distsys QS LQ) (name : dist D -> string) (args : dist D -> list Q) (kwds : dist D -> list (string * Q)) (keys : forall d, NoDup (map fst (kwds d))) : objhash QS LQ D.
Proof.
  refine {| oh_tuple := tuple_hash; oh_text := text_hash; oh_bool := fun b => if b then 1%Z else 0%Z; oh_num := frac_hash : num QS -> Z; oh_pos := Zpos;
            oh_Q := frac_hash; oh_Q_ok := frac_hash_ok; oh_weight := fun _ => 0%Z; d_name := name; d_args := args : dist D -> list (num QS); d_kwds := kwds : dist D -> list (string * num QS); d_keys := keys |}.
  - intros x y E. apply frac_hash_ok. now apply eqR_Qeq.
  - reflexivity.
Defined.
Definition q_args (d : dist DQ) : list Q := match d with DFin l => flat_map (fun p => [inject_Z (fst p); snd p]) l | DUnif => [] end.
Definition OQ : objhash QS LQ DQ := hashes DQ (fun d => match d with DFin _ => "rv_discrete" | DUnif => "uniform" end) q_args (fun _ => []) (fun _ => NoDup_nil _).
Definition HQ : pyhash QS.
Proof.
  refine {| h_empty := 0%Z; h_nom := fun _ b => match b with None => 0%Z | Some false => 1%Z | Some true => 2%Z end;
            h_real := fun _ => 3%Z; h_int := fun _ _ lo ro => if lo then 4%Z else 5%Z; h_union := fun l => fold_right Z.add 6%Z l |}; try reflexivity.
  intros l l' P. induction P; cbn; lia.
Defined.
Lemma deqb_dist : forall d e : dist DQ, deqb d e = true -> dist_eqb OQ d e = true.
Proof.
  intros [l|] [m|] E; try discriminate; [|reflexivity]. unfold dist_eqb. rewrite !andb_true_iff. split; [split|]; [reflexivity| |reflexivity].
  cbn [d_args OQ hashes q_args]. revert m E. induction l as [|p l IH]; intros [|q m] E; try discriminate; auto. cbn [deqb DQ edist_eqb list_eqb] in E. rewrite !andb_true_iff in E. destruct E as ((E1 & E2) & E3). apply Z.eqb_eq in E1.
  cbn [flat_map app list_eqb]. rewrite !andb_true_iff. repeat split.
  - apply neqb_ok. now rewrite E1.
  - apply neqb_ok. apply Qeq_eqR. now apply Qeq_bool_eq.
  - now apply IH.
Qed.

(** ** Cases *)
(** 1/2 and 2/4 are equal numbers *)
Definition iv12 (q : Q) : tr QS := EBasic KInt (TPoly (N:=QS) (TId "X") [q; 1%Q]) (PB (BInt (mkIv (qn q) (qn 1) false true))).
Definition ev_h (q : Q) (vs : list string) : tr QS := EOr [iv12 q; EBasic KNom (TId "Y") (PB (BNom vs (Some true)))].
Lemma ev_h_hashable : forall q vs, (q < 1)%Q -> NoDup vs -> hashable (ev_h q vs).
Proof.
  intros q vs Hq Nd. cbn. split; [|split; [|exact Logic.I]].
  - split; [exact Logic.I|]. split; [|exact Logic.I]. split; [|split; discriminate]. now apply Qlt_Rlt.
  - split; [exact Logic.I|]. split; [|exact Logic.I]. split; auto.
Qed.
Example C52_transform_case : hashable (ev_h (1#2) ["a"; "b"]) /\ hashable (ev_h (2#4) ["b"; "a"]) /\ teqb (ev_h (1#2) ["a"; "b"]) (ev_h (2#4) ["b"; "a"]) = true /\
  thash ioQ HQ OQ (ev_h (1#2) ["a"; "b"]) = thash ioQ HQ OQ (ev_h (2#4) ["b"; "a"]).
Proof.
  assert (H1 : hashable (ev_h (1#2) ["a"; "b"])) by (apply ev_h_hashable; [reflexivity|repeat constructor; cbn; intuition discriminate]).
  assert (H2 : hashable (ev_h (2#4) ["b"; "a"])) by (apply ev_h_hashable; [reflexivity|repeat constructor; cbn; intuition discriminate]).
  assert (E : teqb (ev_h (1#2) ["a"; "b"]) (ev_h (2#4) ["b"; "a"]) = true) by reflexivity.
  split; [exact H1|]. split; [exact H2|]. split; [exact E|]. now apply C52_transform_partial.
Qed.
Definition y1' : spQ := NominalLeaf "Y" [("a", 2#8); ("b", 6#8)]%Q.
Definition p1' : spQ := ProductSPE [ux; y1'].
Example C52_expression_case : shashable p1 /\ shashable p1' /\ alike OQ p1 p1' /\ speqb p1 p1' = true /\ shash ioQ HQ OQ p1 = shash ioQ HQ OQ p1'.
Proof.
  assert (Hu : forall ws, NoDup (map fst ws) -> shashable (ProductSPE [ux; NominalLeaf "Y" ws])) by (intros ws Nd; repeat split; auto).
  assert (H1 : shashable p1) by (apply Hu; repeat constructor; cbn; intuition discriminate).
  assert (H2 : shashable p1') by (apply Hu; repeat constructor; cbn; intuition discriminate).
  assert (A : alike OQ p1 p1') by (constructor; constructor; [constructor; reflexivity|constructor; [constructor; reflexivity|constructor]]).
  assert (E : speqb p1 p1' = true) by reflexivity.
  split; [exact H1|]. split; [exact H2|]. split; [exact A|]. split; [exact E|]. apply C52_expression_partial; auto. exact deqb_dist.
Qed.

(** ** Equal objects with different hashes *)
(** e = (X << {'a'}) and ~~e: the flag of ~~e is False, that of e is None *)
Definition e_a : tr QS := EBasic KNom (TId "X") (PB (BNom ["a"] None)).
Theorem C52_flag_refuted : exists (io : iterorder QS) (H : pyhash QS) (O : objhash QS LQ DQ) e n e', ev_not io e = Ok n /\ ev_not io n = Ok e' /\ teqb e e' = true /\ thash io H O e <> thash io H O e'.
Proof. exists ioQ, HQ, OQ, e_a. eexists. eexists. split; [reflexivity|]. split; [reflexivity|]. split; [reflexivity|]. discriminate. Qed.
(** {'a': 1/4, 'b': 3/4} and {'b': 3/4, 'a': 1/4} *)
Definition y1r : spQ := NominalLeaf "Y" [("b", 3#4); ("a", 1#4)]%Q.
Theorem C52_nominal_order_refuted : exists (io : iterorder QS) (H : pyhash QS) (O : objhash QS LQ DQ) (s t : spQ), wf_spe elaw s /\ wf_spe elaw t /\ speqb s t = true /\ shash io H O s <> shash io H O t.
Proof.
  exists ioQ, HQ, OQ, y1, y1r. split; [apply y_wf; [discriminate|discriminate|reflexivity]|].
  split; [|split; [reflexivity|discriminate]].
  split; [repeat constructor; cbn; intuition discriminate|]. split; [repeat constructor; cbn; discriminate|]. reflexivity.
Qed.
(** norm(loc=1, scale=2) and norm(scale=2, loc=1) *)
Definition kw_loc : list (string * Q) := [("loc", 1%Q); ("scale", 2%Q)].
Definition kw_scale : list (string * Q) := [("scale", 2%Q); ("loc", 1%Q)].
Definition DK : distsys QS LQ := Distsys QS LQ bool (fun _ _ => true) (fun _ _ => 0%Q) (fun _ _ => 0%Q).
Definition OK : objhash QS LQ DK.
Proof. refine (hashes DK (fun _ => "norm") (fun _ => []) (fun b : bool => if b then kw_loc else kw_scale) _). intros []; repeat constructor; cbn; intuition discriminate. Defined.
Theorem C52_keywords_order_refuted : exists (D : distsys QS LQ) (io : iterorder QS) (H : pyhash QS) (O : objhash QS LQ D) (d e : dist D) i,
  (forall a b : dist D, deqb a b = dist_eqb O a b) /\ d_kwds O d = kw_loc /\ d_kwds O e = kw_scale /\
  let leaf d := RealLeaf (D:=D) false "X" d i false [("X", TId "X")] in speqb (leaf d) (leaf e) = true /\ shash io H O (leaf d) <> shash io H O (leaf e).
Proof.
  exists DK, ioQ, HQ, OK, true, false, i01. split; [intros [] []; reflexivity|]. split; [reflexivity|]. split; [reflexivity|]. split; [reflexivity|discriminate].
Qed.
Definition all_hash_properties := (@C09_equal_hash_unflagged_partial, @C52_transform_partial, @C52_expression_partial, C52_transform_case, C52_expression_case, C52_flag_refuted, C52_nominal_order_refuted, C52_keywords_order_refuted).
Print Assumptions all_hash_properties.
