(** Documentation metadata: the serializer, which moves the metadata in and
    out of its state, against one that looks the documentation up by path. *)
From Coq Require Import String Ascii NArith ZArith Lia Bool List.
From Verif Require Import Base Facts Value Data Parse De Ser Repr SerRepr.
Import ListNotations.
Open Scope list_scope.
Open Scope sm_scope.

(** ** Specification *)

(** the documentation at a path *)
Fixpoint doc_at (m : option pfield) (path : list str) : option str :=
  match m with
  | None => None
  | Some (PField d fs) =>
      match path with
      | [] => Some d
      | k :: path' => match fs with None => None | Some l => doc_at (assoc k l) path' end
      end
  end.

Section WithEnv.
Context {E : Env}.
Variable o : opts.
Variable cfg : option pconf.
Variable meta : option pfield.

(** documentation in front of a field: a comment for each line *)
Definition comments (d : option str) : SM unit :=
  match d with
  | None => sret tt
  | Some d =>
      (fix go (ls : list str) : SM unit :=
         match ls with
         | [] => sret tt
         | l :: ls' => write s_doc_prefix ;~ write l ;~ write [c_nl] ;~ indent cfg ;~ go ls'
         end) (lines d [])
  end.
(** a field at a path: its documentation depends on nothing else *)
Definition field_at (path : list str) (first : bool) (key : str) (v : SM unit) : SM bool :=
  (if first then sret tt else separator cfg wide_struct) ;~
  (if compact_structs cfg then sret tt
   else match cfg with
        | None => sret tt
        | Some _ => indent cfg ;~ comments (doc_at meta (path ++ [key]))
        end) ;~
  write_identifier key ;~
  write [c_colon] ;~
  (match cfg with Some p => write (p_separator p) | None => sret tt end) ;~
  sguard v ;~
  sret false.
Definition replay_at (path : list str) (first : bool) (x : option (str * num)) : SM bool :=
  match x with
  | None => sret first
  | Some (k, n) => field_at path first k (ser_num cfg n)
  end.
Definition range_field_at (path : list str) (rk : range_kind) (c : range_state) (key : str) (v : val) (m : SM unit) : SM range_state :=
  match c with
  | RFall first => f <~ field_at path first key m ;; sret (RFall f)
  | RBuf a b =>
      let fall :=
        write [c_lp] ;~
        (if compact_structs cfg then sret tt
         else smod (sset_is_empty (Some false)) ;~ start_indent cfg) ;~
        f <~ replay_at path true a ;;
        f <~ replay_at path f b ;;
        f <~ field_at path f key m ;;
        sret (RFall f) in
      match as_number v with
      | Some n =>
          if range_accepts rk a b key then
            sret (match a with
                  | None => RBuf (Some (key, n)) b
                  | Some _ => RBuf a (Some (key, n))
                  end)
          else fall
      | None => fall
      end
  end.
(** the serializer at a path; only fields of structs and of struct variants
    extend the path *)
Fixpoint ser_at (path : list str) (v : val) : SM unit :=
  match v with
  | VSome v => ser_some o cfg (ser_at path v)
  | VNewtype name v => ser_newtype o cfg name (ser_at path v)
  | VSeq vs =>
      seq_open cfg (length vs) ;~
      c <~ (fix go (vs : list val) (c : bool * nat) : SM (bool * nat) :=
              match vs with
              | [] => sret c
              | v :: vs' => c' <~ seq_elem cfg c (ser_at path v) ;; go vs' c'
              end) vs (true, 0%nat) ;;
      seq_close cfg c
  | VTuple vs =>
      ntv <~ tuple_open cfg (length vs) ;;
      f <~ (fix go (vs : list val) (c : bool) : SM bool :=
              match vs with
              | [] => sret c
              | v :: vs' => c' <~ tuple_elem cfg c (ser_at path v) ;; go vs' c'
              end) vs true ;;
      tuple_close cfg ntv f
  | VTupleStruct name vs =>
      ntv <~ tuple_struct_open o cfg name (length vs) ;;
      f <~ (fix go (vs : list val) (c : bool) : SM bool :=
              match vs with
              | [] => sret c
              | v :: vs' => c' <~ tuple_elem cfg c (ser_at path v) ;; go vs' c'
              end) vs true ;;
      tuple_close cfg ntv f
  | VMap es =>
      map_open cfg (length es) ;~
      f <~ (fix go (es : list (val * val)) (c : bool) : SM bool :=
              match es with
              | [] => sret c
              | (k, v) :: es' => c' <~ map_entry cfg c (ser_at path k) (ser_at path v) ;; go es' c'
              end) es true ;;
      map_close cfg f
  | VStruct name fs =>
      match range_kind_of cfg name (length fs) with
      | Some rk =>
          smod (fun s => sset_isd 0 (sset_nt false s)) ;~
          c <~ (fix go (fs : list (str * val)) (c : range_state) : SM range_state :=
                  match fs with
                  | [] => sret c
                  | (k, v) :: fs' => c' <~ range_field_at path rk c k v (ser_at (path ++ [k]) v) ;; go fs' c'
                  end) fs (RBuf None None) ;;
          range_close cfg rk c
      | None =>
          ntv <~ struct_open o cfg name (length fs) ;;
          f <~ (fix go (fs : list (str * val)) (c : bool) : SM bool :=
                  match fs with
                  | [] => sret c
                  | (k, v) :: fs' => c' <~ field_at path c k (ser_at (path ++ [k]) v) ;; go fs' c'
                  end) fs true ;;
          struct_close cfg ntv f
      end
  | VNewVariant name variant v => ser_newtype_variant o cfg name variant (ser_at path v)
  | VTupVariant name variant vs =>
      ntv <~ tuple_variant_open cfg name variant (length vs) ;;
      f <~ (fix go (vs : list val) (c : bool) : SM bool :=
              match vs with
              | [] => sret c
              | v :: vs' => c' <~ tuple_elem cfg c (ser_at path v) ;; go vs' c'
              end) vs true ;;
      tuple_close cfg ntv f
  | VStructVariant name variant fs =>
      ntv <~ struct_variant_open cfg name variant (length fs) ;;
      f <~ (fix go (fs : list (str * val)) (c : bool) : SM bool :=
              match fs with
              | [] => sret c
              | (k, v) :: fs' => c' <~ field_at path c k (ser_at (path ++ [k]) v) ;; go fs' c'
              end) fs true ;;
      struct_close cfg ntv f
  | v => ser o cfg v
  end.
End WithEnv.

(** ** The metadata while a field is open *)
Lemma doc_none p : doc_at None p = None.
Proof. now destruct p. Qed.
Lemma assoc_remove k k' (l : list (str * pfield)) : assoc k (pf_remove k' l) = if str_eqb k k' then None else assoc k l.
Proof.
  induction l as [|[x f] l IH]; cbn [pf_remove assoc]; [now destruct (str_eqb k k')|].
  destruct (str_eqb k' x) eqn:E1.
  - apply str_eqb_eq in E1. subst x. rewrite IH. now destruct (str_eqb k k').
  - cbn [assoc]. rewrite IH. destruct (str_eqb k x) eqn:E2; [|reflexivity]. apply str_eqb_eq in E2. subst x.
    destruct (str_eqb k k') eqn:E3; [|reflexivity]. apply str_eqb_eq in E3. subst k'. rewrite (proj2 (str_eqb_eq k k) eq_refl) in E1. discriminate.
Qed.
Lemma assoc_insert k k' f (l : list (str * pfield)) : assoc k (pf_insert k' f l) = if str_eqb k k' then Some f else assoc k l.
Proof. unfold pf_insert. cbn [assoc]. rewrite assoc_remove. now destruct (str_eqb k k'). Qed.
Lemma enter_doc k m p : doc_at (fst (meta_enter k m)) p = doc_at m (k :: p).
Proof. destruct m as [[d [l|]]|]; cbn; try reflexivity; now destruct p. Qed.
Lemma leave_doc k m x : (forall p, doc_at x p = doc_at m (k :: p)) -> forall p, doc_at (meta_leave k x (snd (meta_enter k m))) p = doc_at m p.
Proof.
  intros H p. destruct m as [[d [l|]]|]; cbn [meta_enter snd meta_leave]; try reflexivity. cbn [doc_at] in H. destruct x as [f|].
  - destruct p as [|k' p]; [reflexivity|]. cbn [doc_at]. rewrite assoc_insert, assoc_remove. destruct (str_eqb k' k) eqn:EK; [|reflexivity].
    apply str_eqb_eq in EK. subst. apply H.
  - destruct p as [|k' p]; [reflexivity|]. cbn [doc_at]. rewrite assoc_remove. destruct (str_eqb k' k) eqn:EK; [|reflexivity].
    apply str_eqb_eq in EK. subst. symmetry. rewrite <- H. now destruct p.
Qed.

(** ** Refinement *)
Lemma sbind_run {A B} (m : SM A) (k : A -> SM B) s : sbind m k s = match m s with SOk a s' => k a s' | SErr e s' => SErr e s' | SPanic => SPanic end.
Proof. reflexivity. Qed.
Lemma split5 {A B} (m1 m2 m3 m4 m5 : SM unit) (m6 : SM A) (k : A -> SM B) : forall s,
  (m1 ;~ m2 ;~ m3 ;~ m4 ;~ m5 ;~ sbind m6 k) s = sbind (m1 ;~ m2 ;~ m3 ;~ m4 ;~ m5 ;~ m6) k s.
Proof.
  intros s. unfold sbind. destruct (m1 s) as [? s1| |]; auto. destruct (m2 s1) as [? s2| |]; auto. destruct (m3 s2) as [? s3| |]; auto.
  destruct (m4 s3) as [? s4| |]; auto. destruct (m5 s4) as [? s5| |]; auto.
Qed.
Definition set_meta (mt : option pfield) (s : sst) : sst := sset_meta mt s.
Section Refine.
Variable cfg : option pconf.
Variable meta : option pfield.
Hypothesis NM : cfg = None -> meta = None.
(** the state holds the part of the metadata below the path *)
Definition below (path : list str) (s : sst) : Prop := forall p, doc_at (s_meta s) p = doc_at meta (path ++ p).
Definition refines {A} (path : list str) (m m' : SM A) : Prop := forall s mt, below path s ->
  match m s with
  | SOk a s' => m' (set_meta mt s) = SOk a (set_meta mt s') /\ below path s'
  | SErr e s' => m' (set_meta mt s) = SErr e (set_meta mt s')
  | SPanic => m' (set_meta mt s) = SPanic
  end.
Lemma ref_ret {A} path (a : A) : refines path (sret a) (sret a).
Proof. intros s mt B. cbn. auto. Qed.
Lemma ref_fail {A} path e : refines path (@sfail A e) (sfail e).
Proof. intros s mt B. cbn. auto. Qed.
Lemma ref_panic {A} path : refines path (fun _ => @SPanic A) (fun _ => SPanic).
Proof. intros s mt B. cbn. auto. Qed.
Lemma ref_write path t : refines path (write t) (write t).
Proof.
  intros s mt B. unfold write. change (w_cap (set_meta mt s)) with (w_cap s). destruct (w_cap s); [destruct (_ <=? _)%nat|]; cbn; auto.
Qed.
Lemma ref_mod path f : (forall s mt, f (set_meta mt s) = set_meta mt (f s)) -> (forall s, s_meta (f s) = s_meta s) -> refines path (smod f) (smod f).
Proof. intros H1 H2 s mt B. cbn. unfold smod. rewrite H1. split; [reflexivity|]. unfold below. now rewrite H2. Qed.
Lemma ref_bind {A B} path (m m' : SM A) (k k' : A -> SM B) : refines path m m' -> (forall a, refines path (k a) (k' a)) -> refines path (sbind m k) (sbind m' k').
Proof.
  intros H HK s mt BL. unfold sbind. specialize (H s mt BL). destruct (m s) as [a s'|e s'|].
  - destruct H as [-> BL']. apply HK, BL'.
  - now rewrite H.
  - now rewrite H.
Qed.
Lemma ref_get {B} path (k k' : sst -> SM B) : (forall s mt, k' (set_meta mt s) = k' s) -> (forall s, refines path (k s) (k' s)) -> refines path (sbind sget k) (sbind sget k').
Proof. intros H HK s mt BL. unfold sbind, sget. rewrite H. now apply HK. Qed.
Lemma ref_guard {A} path (m m' : SM A) : refines path m m' -> refines path (sguard m) (sguard m').
Proof.
  intros H s mt BL. unfold sguard. change (s_lim (set_meta mt s)) with (s_lim s). destruct (s_lim s) as [[|l]|]; [reflexivity| |now apply H].
  specialize (H (sset_lim (Some l) s) mt BL). change (sset_lim (Some l) (set_meta mt s)) with (set_meta mt (sset_lim (Some l) s)).
  destruct (m (sset_lim (Some l) s)) as [a s'|e s'|].
  - destruct H as [-> BL']. split; [reflexivity|exact BL'].
  - rewrite H. reflexivity.
  - now rewrite H.
Qed.
Lemma ref_if {A} path (b : bool) (m m' k k' : SM A) : refines path m m' -> refines path k k' -> refines path (if b then m else k) (if b then m' else k').
Proof. now destruct b. Qed.
Lemma ref_n path n t : refines path (swrite_n n t) (swrite_n n t).
Proof. induction n as [|n IH]; cbn [swrite_n]; [apply ref_ret|]. apply ref_bind; [apply ref_write|intros; exact IH]. Qed.
Ltac ref_step := lazymatch goal with
  | |- refines _ (sret _) _ => apply ref_ret
  | |- refines _ (sfail _) _ => apply ref_fail
  | |- refines _ (fun _ => SPanic) _ => apply ref_panic
  | |- refines _ (write _) _ => apply ref_write
  | |- refines _ (swrite_n _ _) _ => apply ref_n
  | |- refines _ (smod _) _ => apply ref_mod; reflexivity
  | |- refines _ (sguard _) _ => apply ref_guard
  | |- refines _ (if _ then _ else _) _ => apply ref_if
  | |- refines _ (sbind sget _) _ => apply ref_get; [reflexivity|intros ?]
  | |- refines _ (sbind _ _) _ => apply ref_bind; [|intros ?]
  | |- refines _ (match ?x with _ => _ end) _ => destruct x
  end.
Ltac ref0 := repeat ref_step; try assumption.
Context {E : Env}.
Variable o : opts.
Lemma ref_start path : refines path (start_indent cfg) (start_indent cfg).
Proof. unfold start_indent. ref0. Qed.
Lemma ref_indent path : refines path (indent cfg) (indent cfg).
Proof. unfold indent. ref0. Qed.
Lemma ref_end path : refines path (end_indent cfg) (end_indent cfg).
Proof. unfold end_indent. ref0. Qed.
Lemma ref_open path w len : refines path (open_wide cfg w len) (open_wide cfg w len).
Proof. unfold open_wide. ref0. apply ref_start. Qed.
Lemma ref_close path w : refines path (close_wide cfg w) (close_wide cfg w).
Proof. unfold close_wide. ref0. apply ref_end. Qed.
Lemma ref_separator path w : refines path (separator cfg w) (separator cfg w).
Proof. unfold separator. ref0. Qed.
Lemma ref_trailing path w f : refines path (trailing cfg w f) (trailing cfg w f).
Proof. unfold trailing. ref0. Qed.
Lemma ref_validate path n : refines path (validate_identifier n) (validate_identifier n).
Proof. unfold validate_identifier. ref0. Qed.
Lemma ref_ident path n : refines path (write_identifier n) (write_identifier n).
Proof. unfold write_identifier, validate_identifier. ref0. Qed.
Lemma ref_int path k z : refines path (ser_int cfg k z) (ser_int cfg k z).
Proof. unfold ser_int. ref0. Qed.
Lemma ref_float path k b : refines path (ser_float cfg k b) (ser_float cfg k b).
Proof. unfold ser_float. ref0. Qed.
Lemma ref_raw_str path p v : refines path (unescaped_or_raw p v) (unescaped_or_raw p v).
Proof. unfold unescaped_or_raw. ref0. Qed.
Lemma ref_str path v : refines path (ser_str cfg v) (ser_str cfg v).
Proof. unfold ser_str, escaped_str. ref0. apply ref_raw_str. Qed.
Lemma ref_bytes path v : refines path (ser_bytes cfg v) (ser_bytes cfg v).
Proof. unfold ser_bytes, escaped_byte_str. ref0. apply ref_raw_str. Qed.
Lemma ref_unit path : refines path ser_unit ser_unit.
Proof. unfold ser_unit. ref0. Qed.
Lemma ref_drop path : refines path drop_compound drop_compound.
Proof. unfold drop_compound. ref0. Qed.
Lemma ref_comments path : refines path (doc_lines cfg) (comments cfg (doc_at meta path)).
Proof.
  assert (R : forall d, refines path (comments cfg d) (comments cfg d)).
  { intros [d|]; cbn [comments]; [|ref0]. generalize (lines d []). intros ls. induction ls as [|l ls IH]; ref0. apply ref_indent. }
  intros s mt B. assert (D := B []). rewrite app_nil_r in D. rewrite <- D.
  replace (doc_lines cfg s) with (comments cfg (doc_at (s_meta s) []) s); [now apply R|].
  unfold doc_lines. unfold sbind at 1. unfold sget at 1. cbv beta iota. destruct (s_meta s) as [[d fs]|]; reflexivity.
Qed.
#[local] Hint Resolve ref_start ref_indent ref_end ref_open ref_close ref_separator ref_trailing ref_validate ref_ident ref_int ref_float
  ref_raw_str ref_str ref_bytes ref_unit ref_drop ref_comments : ref.
Ltac refs := ref0; try (solve [auto with ref]).
Lemma ref_field path f k m m' : refines (path ++ [k]) m m' -> refines path (struct_field cfg f k m) (field_at cfg meta path f k m').
Proof.
  intros H. unfold struct_field. intros s mt B.
  set (XY := match cfg with Some _ => meta_enter k (s_meta s) | None => (None, None) end).
  assert (BX : below (path ++ [k]) (sset_meta (fst XY) s)).
  { intros p. cbn. unfold XY. rewrite <- app_assoc. cbn [app]. destruct cfg; [|rewrite NM by reflexivity; cbn; now rewrite !doc_none]. rewrite enter_doc. apply B. }
  assert (BY : forall s' : sst, below (path ++ [k]) s' -> below path (sset_meta (meta_leave k (s_meta s') (snd XY)) s')).
  { intros s' B' p. cbn. unfold XY. destruct cfg; [|cbn; rewrite NM by reflexivity; now rewrite !doc_none]. rewrite <- B. apply leave_doc.
    intros q. rewrite (B' q), (B (k :: q)), <- app_assoc. reflexivity. }
  assert (R : refines (path ++ [k])
    ((if f then sret tt else separator cfg wide_struct) ;~
     (if compact_structs cfg then sret tt else match cfg with None => sret tt | Some _ => indent cfg ;~ doc_lines cfg end) ;~
     write_identifier k ;~ write [c_colon] ;~ (match cfg with Some p => write (p_separator p) | None => sret tt end) ;~ sguard m)
    ((if f then sret tt else separator cfg wide_struct) ;~
     (if compact_structs cfg then sret tt else match cfg with None => sret tt | Some _ => indent cfg ;~ comments cfg (doc_at meta (path ++ [k])) end) ;~
     write_identifier k ;~ write [c_colon] ;~ (match cfg with Some p => write (p_separator p) | None => sret tt end) ;~ sguard m')).
  { assert (RI := ref_indent (path ++ [k])). assert (RC := ref_comments (path ++ [k])). assert (RS := ref_separator (path ++ [k]) wide_struct).
    apply ref_bind; [refs|intros _]. apply ref_bind; [apply ref_if; [refs|destruct cfg; refs]|intros _].
    apply ref_bind; [refs|intros _]. apply ref_bind; [refs|intros _]. apply ref_bind; [destruct cfg; refs|intros _]. refs. }
  specialize (R (sset_meta (fst XY) s) mt BX). change (set_meta mt (sset_meta (fst XY) s)) with (set_meta mt s) in R.
  unfold sbind at 1. unfold sget at 1. cbv beta iota. fold XY. destruct XY as [X Y]. cbn [fst snd] in *. unfold field_at. revert R.
  generalize (if compact_structs cfg then sret tt else match cfg with None => sret tt | Some _ => indent cfg ;~ doc_lines cfg end).
  generalize (if compact_structs cfg then sret tt else match cfg with None => sret tt | Some _ => indent cfg ;~ comments cfg (doc_at meta (path ++ [k])) end).
  generalize (if f then sret tt else separator cfg wide_struct). generalize (match cfg with Some p => write (p_separator p) | None => sret tt end).
  intros M1 M2 M3 M4. set (s0 := sset_meta X s) in *. set (s1 := set_meta mt s) in *. intros R.
  unfold sbind at 1. change (smod (sset_meta X) s) with (SOk tt s0). cbv beta iota.
  rewrite (split5 M2 M4 (write_identifier k) (write [c_colon]) M1 (sguard m) (fun _ => smod (fun s => sset_meta (meta_leave k (s_meta s) Y) s) ;~ sret false)).
  rewrite (split5 M2 M3 (write_identifier k) (write [c_colon]) M1 (sguard m') (fun _ => sret false)).
  set (C1 := M2 ;~ M4 ;~ write_identifier k ;~ write [c_colon] ;~ M1 ;~ sguard m) in *.
  set (C2 := M2 ;~ M3 ;~ write_identifier k ;~ write [c_colon] ;~ M1 ;~ sguard m') in *.
  rewrite (sbind_run C1), (sbind_run C2). destruct (C1 s0) as [a s'|e s'|].
  - destruct R as [-> B']. split; [reflexivity|]. now apply BY.
  - now rewrite R.
  - now rewrite R.
Qed.
Lemma ref_num path n : refines path (ser_num cfg n) (ser_num cfg n).
Proof. unfold ser_num. refs. Qed.
Lemma ref_replay path f x : refines path (replay cfg f x) (replay_at cfg meta path f x).
Proof. destruct x as [[k n]|]; cbn [replay replay_at]; [apply ref_field, ref_num|refs]. Qed.
Lemma ref_buffered path x : refines path (write_buffered cfg x) (write_buffered cfg x).
Proof. unfold write_buffered. refs. apply ref_num. Qed.
Lemma ref_range_field path rk c k v m m' : refines (path ++ [k]) m m' -> refines path (range_field cfg rk c k v m) (range_field_at cfg meta path rk c k v m').
Proof.
  intros H. destruct c as [a b|f]; cbn [range_field range_field_at].
  - assert (FB : refines path (write [c_lp] ;~
        (if compact_structs cfg then sret tt
         else smod (sset_is_empty (Some false)) ;~ start_indent cfg) ;~
        f <~ replay cfg true a ;;
        f <~ replay cfg f b ;;
        f <~ struct_field cfg f k m ;;
        sret (RFall f))
       (write [c_lp] ;~
        (if compact_structs cfg then sret tt
         else smod (sset_is_empty (Some false)) ;~ start_indent cfg) ;~
        f <~ replay_at cfg meta path true a ;;
        f <~ replay_at cfg meta path f b ;;
        f <~ field_at cfg meta path f k m' ;;
        sret (RFall f))).
    { apply ref_bind; [refs|intros _]. apply ref_bind; [refs|intros _]. apply ref_bind; [apply ref_replay|intros f].
      apply ref_bind; [apply ref_replay|intros g]. apply ref_bind; [now apply ref_field|intros h]. refs. }
    destruct (as_number v); [|exact FB]. destruct (range_accepts rk a b k); [|exact FB]. refs.
  - apply ref_bind; [now apply ref_field|intros h]. refs.
Qed.
Lemma ref_struct_close path n f : refines path (struct_close cfg n f) (struct_close cfg n f).
Proof. unfold struct_close. refs. Qed.
Lemma ref_tuple_close path n f : refines path (tuple_close cfg n f) (tuple_close cfg n f).
Proof. unfold tuple_close. refs. Qed.
Lemma ref_range_close path rk c : refines path (range_close cfg rk c) (range_close cfg rk c).
Proof. destruct c as [a b|f]; cbn [range_close]; [|apply ref_struct_close]. destruct rk; refs; apply ref_buffered. Qed.
Lemma ref_tuple_loop path l : all (fun v => forall path, refines path (ser o cfg v) (ser_at o cfg meta path v)) l -> forall c, refines path
  ((fix go (vs : list val) (c : bool) : SM bool := match vs with [] => sret c | v :: vs' => c' <~ tuple_elem cfg c (ser o cfg v) ;; go vs' c' end) l c)
  ((fix go (vs : list val) (c : bool) : SM bool := match vs with [] => sret c | v :: vs' => c' <~ tuple_elem cfg c (ser_at o cfg meta path v) ;; go vs' c' end) l c).
Proof.
  intros IH. induction l as [|v l IHl]; intros c; [refs|]. destruct IH as [I1 I2]. apply ref_bind; [|intros c'; apply IHl; auto]. unfold tuple_elem. refs.
Qed.
Lemma ref_struct_loop path l : all (fun kv => forall path, refines path (ser o cfg (snd kv)) (ser_at o cfg meta path (snd kv))) l -> forall c, refines path
  ((fix go (vs : list (str * val)) (c : bool) : SM bool := match vs with [] => sret c | (k, v) :: vs' => c' <~ struct_field cfg c k (ser o cfg v) ;; go vs' c' end) l c)
  ((fix go (vs : list (str * val)) (c : bool) : SM bool := match vs with [] => sret c | (k, v) :: vs' => c' <~ field_at cfg meta path c k (ser_at o cfg meta (path ++ [k]) v) ;; go vs' c' end) l c).
Proof.
  intros IH. induction l as [|[k v] l IHl]; intros c; [refs|]. destruct IH as [I1 I2]. apply ref_bind; [|intros c'; apply IHl; auto]. apply ref_field, I1.
Qed.
Theorem ref_ser v : forall path, refines path (ser o cfg v) (ser_at o cfg meta path v).
Proof.
  induction v as [v F|v IH|n v IH|l IH|l IH|n l IH|l IH|n l IH|n k v IH|n k l IH|n k l IH] using val_ind'; intros path.
  - destruct v; try contradiction; cbn [ser ser_at]; refs.
    + unfold ser_char. refs.
    + unfold ser_unit_struct. refs.
    + unfold ser_none. refs.
    + unfold ser_unit_variant. refs.
    + unfold ser_raw. refs.
  - cbn [ser ser_at]. unfold ser_some. refs; apply IH.
  - cbn [ser ser_at]. unfold ser_newtype. refs; apply IH.
  - cbn [ser ser_at]. apply ref_bind; [unfold seq_open; refs|intros _]. apply ref_bind; [|intros c; unfold seq_close; refs].
    generalize (true, 0%nat). induction l as [|v l IHl]; intros c; [refs|]. destruct IH as [I1 I2]. apply ref_bind; [|intros c'; apply IHl; auto].
    unfold seq_elem. destruct c as [f idx]. refs.
  - cbn [ser ser_at]. apply ref_bind; [unfold tuple_open; refs|intros m]. apply ref_bind; [now apply ref_tuple_loop|intros c; apply ref_tuple_close].
  - cbn [ser ser_at]. apply ref_bind; [unfold tuple_struct_open, tuple_open; refs|intros m]. apply ref_bind; [now apply ref_tuple_loop|intros c; apply ref_tuple_close].
  - cbn [ser ser_at]. apply ref_bind; [unfold map_open; refs|intros _]. apply ref_bind; [|intros c; unfold map_close; refs].
    generalize true. induction l as [|[k v] l IHl]; intros c; [refs|]. destruct IH as [[I1 I1'] I2]. apply ref_bind; [|intros c'; apply IHl; auto].
    unfold map_entry. cbn [fst snd] in *. refs.
  - cbn [ser ser_at]. destruct (range_kind_of cfg n (length l)) as [rk|].
    + apply ref_bind; [refs|intros _]. apply ref_bind; [|intros c; apply ref_range_close].
      generalize (RBuf None None). induction l as [|[k v] l IHl]; intros c; [refs|]. destruct IH as [I1 I2]. apply ref_bind; [|intros c'; apply IHl; auto].
      apply ref_range_field, I1.
    + apply ref_bind; [unfold struct_open; refs|intros m]. apply ref_bind; [now apply ref_struct_loop|intros c; apply ref_struct_close].
  - cbn [ser ser_at]. unfold ser_newtype_variant. refs; apply IH.
  - cbn [ser ser_at]. apply ref_bind; [unfold tuple_variant_open; refs|intros m]. apply ref_bind; [now apply ref_tuple_loop|intros c; apply ref_tuple_close].
  - cbn [ser ser_at]. apply ref_bind; [unfold struct_variant_open; refs|intros m]. apply ref_bind; [now apply ref_struct_loop|intros c; apply ref_struct_close].
Qed.
Lemma ref_headers path p ns : refines path (write_headers p ns) (write_headers p ns).
Proof. induction ns as [|n ns IH]; cbn [write_headers]; refs. Qed.
Lemma ref_new path : refines path (ser_new o cfg) (ser_new o cfg).
Proof. unfold ser_new. refs. apply ref_headers. Qed.
End Refine.
