(** C65: docs belong to paths *)
From Coq Require Import String Ascii NArith ZArith Lia Bool List.
From Verif Require Import Base Facts Value Data Parse De Ser Repr ReprFacts SerWp SerRepr SerDocs Meta Toy.
Import ListNotations.
Open Scope list_scope.

(** What a tree says: for a path, whether there is a field, its doc and
    whether it has inner fields. *)
Definition about := list str -> option (str * bool).
Definition nowhere : about := fun _ => None.
Definition blank : about := fun p => match p with [] => Some ([], false) | _ => None end.
Definition doc_of (x : about) : str := match x [] with Some (d, _) => d | None => [] end.
Definition inner_of (x : about) : bool := match x [] with Some (_, b) => b | None => false end.
Definition below (x : about) : str -> about := fun k p => x (k :: p).
Definition node (d : str) (b : bool) (y : str -> about) : about := fun p => match p with [] => Some (d, b) | k :: q => y k q end.
Definition set (k : str) (x : about) (y : str -> about) : str -> about := fun j => if str_eqb j k then x else y j.

(** What the calls of the API mean. *)
Fixpoint fmean (p : fprog) (x : about) : about :=
  match p with
  | FDone => x
  | FDoc d r => fmean r (node d (inner_of x) (below x))
  | FClear r => fmean r (node (doc_of x) false (fun _ => nowhere))
  | FBuild g r => fmean r (node (doc_of x) true (gmean g (fun _ => nowhere)))
  | FMut g r => fmean r (if inner_of x then node (doc_of x) true (gmean g (below x)) else x)
  end
with gmean (p : gprog) (y : str -> about) : str -> about :=
  match p with
  | GDone => y
  | GInsert k f r => gmean r (set k (fmean f blank) y)
  | GRemove k r => gmean r (set k nowhere y)
  | GField k f r => gmean r (set k (fmean f (match y k [] with Some _ => y k | None => blank end)) y)
  | GGet k f r => gmean r (match y k [] with Some _ => set k (fmean f (y k)) y | None => y end)
  end.

(** what a tree of the model says *)
Fixpoint node_at (m : option pfield) (p : list str) {struct p} : option (str * bool) :=
  match p with
  | [] => match m with Some f => Some (f_doc f, f_has_fields f) | None => None end
  | k :: p => match m with
              | Some f => match f_fields f with Some l => node_at (assoc k l) p | None => None end
              | None => None
              end
  end.
Definition says (f : pfield) (x : about) : Prop := forall p, node_at (Some f) p = x p.
Definition says_all (l : list (str * pfield)) (y : str -> about) : Prop := forall k p, node_at (assoc k l) p = y k p.

Lemma node_none p : node_at None p = None.
Proof. now destruct p. Qed.
Lemma says_doc f x : says f x -> doc_of x = f_doc f /\ inner_of x = f_has_fields f.
Proof. intros H. unfold doc_of, inner_of. rewrite <- (H []). auto. Qed.
Lemma says_node d l y : says_all l y -> says (PField d (Some l)) (node d true y).
Proof. intros H [|k p]; [reflexivity|]. apply H. Qed.
Lemma says_leaf d : says (PField d None) (node d false (fun _ => nowhere)).
Proof. now intros [|k p]. Qed.
Lemma says_below d l x : says (PField d (Some l)) x -> says_all l (below x).
Proof. intros H k p. exact (H (k :: p)). Qed.
Lemma says_insert k f l x y : says f x -> says_all l y -> says_all (pf_insert k f l) (set k x y).
Proof.
  intros F L j p. unfold pf_insert, set. cbn [assoc]. destruct (str_eqb j k) eqn:Q; [apply F|]. rewrite assoc_kept by exact Q. apply L.
Qed.
Lemma says_remove k l y : says_all l y -> says_all (pf_remove k l) (set k nowhere y).
Proof.
  intros L j p. unfold set. destruct (str_eqb j k) eqn:Q.
  - apply str_eqb_eq in Q as ->. rewrite assoc_removed. apply node_none.
  - rewrite assoc_kept by exact Q. apply L.
Qed.
Lemma says_blank : says f_empty blank.
Proof. now intros [|k p]. Qed.
Lemma says_nil : says_all [] (fun _ => nowhere).
Proof. intros k p. apply node_none. Qed.

Scheme fprog_mut := Induction for fprog Sort Prop with gprog_mut := Induction for gprog Sort Prop.
Combined Scheme prog_ind from fprog_mut, gprog_mut.
Lemma run_means : (forall p f x, says f x -> says (frun p f) (fmean p x)) /\ (forall g l y, says_all l y -> says_all (grun g l) (gmean g y)).
Proof.
  apply prog_ind.
  - auto.
  - intros d r IH [d0 fs] x H. cbn [frun fmean f_with_doc]. apply IH. destruct (says_doc _ _ H) as [_ Q]. rewrite Q.
    intros [|k p]; [reflexivity|]. exact (H (k :: p)).
  - intros r IH [d0 fs] x H. cbn [frun fmean f_with_fields]. apply IH. destruct (says_doc _ _ H) as [-> _]. apply says_leaf.
  - intros g IG r IH [d0 fs] x H. cbn [frun fmean f_with_fields]. apply IH. destruct (says_doc _ _ H) as [-> _]. apply says_node, IG, says_nil.
  - intros g IG r IH [d0 [l|]] x H; cbn [frun fmean f_fields]; destruct (says_doc _ _ H) as [-> ->]; cbn [f_has_fields]; apply IH; [|exact H].
    apply says_node, IG. now apply says_below with (d := d0).
  - auto.
  - intros k f IF r IH l y H. cbn [grun gmean]. apply IH, says_insert; [|exact H]. apply IF, says_blank.
  - intros k r IH l y H. cbn [grun gmean]. apply IH. now apply says_remove.
  - intros k f IF r IH l y H. cbn [grun gmean]. apply IH, says_insert; [|exact H]. apply IF. unfold g_entry. rewrite <- (H k []).
    destruct (assoc k l) as [z|] eqn:Q; cbn [node_at]; [|apply says_blank]. intros p. rewrite <- Q. apply H.
  - intros k f IF r IH l y H. cbn [grun gmean]. rewrite <- (H k []). destruct (assoc k l) as [z|] eqn:Q; cbn [node_at]; apply IH; [|exact H].
    apply says_insert; [|exact H]. apply IF. intros p. rewrite <- Q. apply H.
Qed.
Lemma doc_node m : forall p, doc_at m p = match node_at m p with Some (d, _) => d | None => [] end.
Proof.
  intros p. revert m. induction p as [|k p IH]; intros [[d [l|]]|]; cbn [doc_at node_at f_fields f_doc]; try reflexivity. apply IH.
Qed.

(** C65: after any calls, each path has the doc, the field and the inner fields
    that these calls say. *)
Theorem C65_calls p : forall path, node_at (Some (frun p f_empty)) path = fmean p blank path.
Proof. exact (proj1 run_means p f_empty blank says_blank). Qed.
Print Assumptions C65_calls.

(** C65: the queries answer accordingly. *)
Theorem C65_queries p : let f := frun p f_empty in
  f_doc f = doc_of (fmean p blank) /\ f_has_fields f = inner_of (fmean p blank) /\
  forall fs, f_fields f = Some fs ->
    (forall k, g_contains k fs = match fmean p blank [k] with Some _ => true | None => false end) /\
    (g_is_empty fs = true <-> forall k, fmean p blank [k] = None).
Proof.
  intros f. assert (H := C65_calls p). fold f in H. split; [|split].
  - unfold doc_of. now rewrite <- (H []).
  - unfold inner_of. now rewrite <- (H []).
  - intros fs Q. split.
    + intros k. rewrite <- (H [k]). cbn [node_at]. rewrite Q. unfold g_contains. now destruct (assoc k fs).
    + split.
      * intros N k. rewrite <- (H [k]). cbn [node_at]. rewrite Q. destruct fs; [reflexivity|discriminate].
      * intros N. destruct fs as [|[k z] fs]; [reflexivity|]. specialize (N k). rewrite <- (H [k]) in N. cbn [node_at] in N. rewrite Q in N.
        cbn [assoc] in N. rewrite str_eqb_refl in N. discriminate.
Qed.
Print Assumptions C65_queries.

(** C65: the text depends on the docs that the paths have and on nothing else
    in the tree: not on the order of its maps, not on fields without docs. *)
Theorem C65_output {E : Env} o p v prog1 prog2 :
  (forall path, match fmean prog1 blank path with Some (d, _) => d | None => [] end = match fmean prog2 blank path with Some (d, _) => d | None => [] end) ->
  to_string o (Some (with_meta (Some (frun prog1 f_empty)) p)) v = to_string o (Some (with_meta (Some (frun prog2 f_empty)) p)) v.
Proof.
  intros H. apply same_docs. intros path. rewrite !doc_node, !C65_calls. apply H.
Qed.
Print Assumptions C65_output.
(** no docs are as good as no tree *)
Theorem C65_no_docs {E : Env} o p v prog :
  (forall path d b, fmean prog blank path = Some (d, b) -> d = []) ->
  to_string o (Some (with_meta (Some (frun prog f_empty)) p)) v = to_string o (Some (with_meta None p)) v.
Proof.
  intros H. apply same_docs. intros path. rewrite doc_none, doc_node, C65_calls. destruct (fmean prog blank path) as [[d b]|] eqn:Q; [|reflexivity]. now apply H in Q.
Qed.
Print Assumptions C65_no_docs.

(** The statement that [build_fields] keeps the docs of names that its closure
    does not mention is false: it starts afresh. *)
Definition a : str := [97%N].
Definition b : str := [98%N].
Definition d1 : str := [120%N].
Definition d2 : str := [121%N].
Definition build1 : gprog := GField a (FDoc d1 FDone) GDone.
Definition build2 : gprog := GField b (FDoc d2 FDone) GDone.
Theorem C65_build_refuted : exists path d,
  node_at (Some (frun (FBuild build1 FDone) f_empty)) path = Some (d, false) /\ d <> [] /\
  (forall l, assoc a (grun build2 l) = assoc a l) /\
  node_at (Some (frun (FBuild build1 (FBuild build2 FDone)) f_empty)) path = None.
Proof. exists [a], d1. repeat split; [discriminate|]. intros l. cbn [grun build2]. unfold pf_insert. cbn [assoc]. apply assoc_kept. reflexivity. Qed.
Print Assumptions C65_build_refuted.

(** Examples *)
#[local] Existing Instance Toy.
Definition std := PConf (Some 9%nat) [10%N] [32%N] [32%N] false false false (Exts false false false false) false true false false false None false.
Definition none := Opts (Exts false false false false) None.
(* the calls of the module's example, shorter: a documented, b documented, a inside b documented *)
Definition creature : fprog := FBuild (GField a (FDoc d1 FDone) (GField b (FDoc d2 (FBuild (GField a (FDoc (d2 ++ [10%N] ++ d1) FDone) GDone) FDone)) GDone)) FDone.
(* the same docs by other calls: other order, a field without doc, a doc that is replaced, a field that is removed *)
Definition creature2 : fprog := FDoc d1 (FBuild (GField b (FBuild (GInsert a (FDoc (d2 ++ [10%N] ++ d1) (FBuild GDone FDone)) GDone) (FDoc d2 FDone))
  (GField d1 (FDoc d1 FDone) (GRemove d1 (GField a (FDoc d2 FDone) (GGet a (FDoc d1 FDone) (GField d2 FDone GDone)))))) (FDoc [] (FMut GDone FDone))).
Example C65_ex_calls : fmean creature blank [b; a] = Some (d2 ++ [10%N] ++ d1, false) /\ fmean creature blank [b] = Some (d2, true) /\ fmean creature blank [a; a] = None.
Proof. now cbn. Qed.
(* text of a struct with both, two levels deep *)
Definition life : val := VStruct a [(a, VInt U8 1%Z); (b, VSome (VStruct a [(a, VInt U8 2%Z); (b, VNone)]))].
Example C65_ex_text : to_string none (Some (with_meta (Some (frun creature f_empty)) std)) life = inl (lit
"(
 /// x
 a: 1,
 /// y
 b: Some((
  /// y
  /// x
  a: 2,
  b: None,
 )),
)").
Proof. vm_compute. reflexivity. Qed.
(* programs with the same docs *)
Example C65_ex_same : to_string none (Some (with_meta (Some (frun creature2 f_empty)) std)) life = to_string none (Some (with_meta (Some (frun creature f_empty)) std)) life
  /\ frun creature2 f_empty <> frun creature f_empty.
Proof.
  split; [|intros Q; vm_compute in Q; discriminate]. apply C65_output. intros path. rewrite <- !C65_calls.
  assert (K1 : frun creature f_empty = PField [] (Some [(b, PField d2 (Some [(a, PField (d2 ++ [10%N] ++ d1) None)])); (a, PField d1 None)])) by reflexivity.
  assert (K2 : frun creature2 f_empty = PField [] (Some [(d2, PField [] None); (a, PField d1 None); (b, PField d2 (Some [(a, PField (d2 ++ [10%N] ++ d1) (Some []))]))])) by reflexivity.
  rewrite K1, K2. destruct path as [|k path]; [reflexivity|]. cbn [node_at f_fields assoc].
  destruct (str_eqb k d2) eqn:Q1; [apply str_eqb_eq in Q1 as ->; now destruct path|].
  destruct (str_eqb k a) eqn:Q2; [apply str_eqb_eq in Q2 as ->; now destruct path|].
  destruct (str_eqb k b) eqn:Q3; [|now destruct path].
  destruct path as [|j path]; [reflexivity|]. cbn [node_at f_fields assoc]. destruct (str_eqb j a); [|now rewrite node_none].
  destruct path as [|i path]; [reflexivity|]. cbn [node_at f_fields assoc]. now rewrite node_none.
Qed.
(* fields without docs *)
Example C65_ex_none : to_string none (Some (with_meta (Some (frun (FBuild (GField a FDone GDone) FDone) f_empty)) std)) life = to_string none (Some (with_meta None std)) life.
Proof.
  apply C65_no_docs. intros [|k path] d h Q; cbn in Q; [congruence|]. unfold set in Q. destruct (str_eqb k a); [|discriminate]. destruct path; cbn in Q; congruence.
Qed.
