(** add_panning_to_svg. *)
From Coq Require Import String Ascii.
From Coq Require Import List Arith Lia Bool.
From Verif Require Import Base M_Plot2 Spec_Svg.
Import ListNotations.
Open Scope string_scope.
Open Scope list_scope.

Definition cat (l : list string) : string := fold_right append EmptyString l.
Definition marker : string := "SVGPan library".

Lemma sapp_assoc (a b c : string) : ((a ++ b) ++ c = a ++ (b ++ c))%string.
Proof. induction a as [|x a IH]; [reflexivity|]. cbn. now rewrite IH. Qed.
Lemma sapp_nil (a : string) : (a ++ "" = a)%string.
Proof. induction a as [|x a IH]; [reflexivity|]. cbn. now rewrite IH. Qed.
Lemma cat_app l m : cat (l ++ m) = (cat l ++ cat m)%string.
Proof. induction l as [|x l IH]; [reflexivity|]. cbn [app cat fold_right]. fold (cat (l ++ m)). rewrite IH, sapp_assoc. reflexivity. Qed.

(** ** Search *)
Lemma prefix_app w s t : prefix w s = true -> prefix w (s ++ t) = true.
Proof.
  revert s. induction w as [|a w IH]; intros [|b s]; cbn; try discriminate; auto. { now destruct t. }
  destruct (Ascii.ascii_dec a b); [apply IH|discriminate].
Qed.
Lemma occurs_left w s t : occurs w s = true -> occurs w (s ++ t) = true.
Proof.
  induction s as [|c s IH]; cbn [occurs append].
  - rewrite orb_false_r. intros H. apply (prefix_app _ "" t) in H. cbn in H. destruct t; cbn [occurs]; now rewrite H.
  - intros H. apply orb_true_iff in H. apply orb_true_iff. destruct H as [H|H]; [left; now apply (prefix_app w (String c s) t)|right; auto].
Qed.
Lemma occurs_right w s t : occurs w t = true -> occurs w (s ++ t) = true.
Proof. intros H. induction s as [|c s IH]; [exact H|]. cbn [occurs append]. now rewrite IH, orb_true_r. Qed.

Lemma prefix_cut w u s : no_newline w -> prefix w (u ++ String LF s) = true -> prefix w u = true.
Proof.
  revert u. induction w as [|a w IH]; intros u NN H; [now destruct u|]. destruct NN as (Na & NN). destruct u as [|b u]; cbn [append prefix] in H.
  - destruct (Ascii.ascii_dec a LF); [congruence|discriminate].
  - cbn [prefix]. destruct (Ascii.ascii_dec a b); [|discriminate]. now apply IH.
Qed.
Lemma occurs_cut w u s : no_newline w -> w <> "" -> occurs w (u ++ String LF s) = true -> occurs w u = true \/ occurs w s = true.
Proof.
  intros NN NE. induction u as [|c u IH]; cbn [append occurs]; intros H; apply orb_true_iff in H; destruct H as [H|H].
  - exfalso. destruct w as [|a w]; [congruence|]. cbn [prefix] in H. destruct (Ascii.ascii_dec a LF); [|discriminate]. now destruct NN.
  - now right.
  - left. change (String c (u ++ String LF s)) with (String c u ++ String LF s)%string in H. apply prefix_cut in H; auto. cbn [occurs]. now rewrite H.
  - destruct (IH H) as [I|I]; [left; cbn [occurs]; now rewrite I, orb_true_r|now right].
Qed.
Lemma marker_ok : no_newline marker /\ marker <> "".
Proof. split; [|discriminate]. cbn. repeat split; discriminate. Qed.

(** ** Lines *)
Lemma lines_one l s : one_line l -> file_lines (l ++ s) = l :: file_lines s.
Proof.
  intros (w & NN & ->). rewrite sapp_assoc. induction w as [|c w IH]; cbn [append file_lines newline].
  - rewrite Ascii.eqb_refl. reflexivity.
  - destruct NN as (Nc & NN). destruct (Ascii.eqb_spec c LF); [congruence|]. cbn [newline append] in IH. rewrite (IH NN). reflexivity.
Qed.
Lemma lines_tail w : no_newline w -> file_lines w = if String.eqb w "" then [] else [w].
Proof.
  induction w as [|c w IH]; intros NN; [reflexivity|]. destruct NN as (Nc & NN). cbn [file_lines]. destruct (Ascii.eqb_spec c LF); [congruence|]. rewrite (IH NN).
  destruct w; reflexivity.
Qed.
Lemma split_lines s : exists ls w, (forall l, In l ls -> one_line l) /\ no_newline w /\ s = (cat ls ++ w)%string.
Proof.
  induction s as [|c s (ls & w & F & N & ->)].
  - exists [], "". split; [intros ? []|]. split; [exact Logic.I|reflexivity].
  - destruct (Ascii.ascii_dec c LF) as [->|NC].
    + exists (newline :: ls), w. split; [|split; [auto|reflexivity]]. intros l [<-|I]; auto. exists "". split; [exact Logic.I|reflexivity].
    + destruct ls as [|l ls].
      * exists [], (String c w). split; [intros ? []|]. split; [split; auto|reflexivity].
      * exists (String c l :: ls), w. split; [|split; [auto|reflexivity]]. intros k [<-|I]; [|apply F; now right]. destruct (F l (or_introl eq_refl)) as (u & NU & ->). exists (String c u). split; [split; auto|reflexivity].
Qed.
Lemma lines_cat ls s : (forall l, In l ls -> one_line l) -> file_lines (cat ls ++ s) = ls ++ file_lines s.
Proof.
  induction ls as [|l ls IH]; intros F; [reflexivity|]. cbn [cat fold_right app]. fold (cat ls). rewrite sapp_assoc, lines_one by (apply F; now left). f_equal. apply IH. intros; apply F; now right.
Qed.
Lemma cat_lines s : cat (file_lines s) = s.
Proof.
  destruct (split_lines s) as (ls & w & F & N & ->). rewrite lines_cat, cat_app by auto. f_equal. rewrite lines_tail by auto.
  destruct (String.eqb_spec w ""); [now subst|]. cbn. apply sapp_nil.
Qed.
Lemma whole_cat s : whole s -> exists ls, (forall l, In l ls -> one_line l) /\ s = cat ls.
Proof.
  induction 1 as [|l s OL W (ls & F & ->)]; [exists []; split; [intros ? []|reflexivity]|]. exists (l :: ls). split; [|reflexivity]. intros k [<-|I]; auto.
Qed.
Lemma lines_whole s t : whole s -> file_lines (s ++ t) = file_lines s ++ file_lines t.
Proof. intros W. destruct (whole_cat s W) as (ls & F & ->). rewrite lines_cat by auto. f_equal. rewrite <- (sapp_nil (cat ls)), lines_cat by auto. cbn. now rewrite app_nil_r. Qed.
Lemma cat_whole ls : (forall l, In l ls -> one_line l) -> whole (cat ls).
Proof. induction ls as [|l ls IH]; intros F; [constructor|]. cbn. constructor; [apply F; now left|apply IH; intros; apply F; now right]. Qed.
Lemma whole_app s t : whole s -> whole t -> whole (s ++ t).
Proof. intros W1 W2. induction W1; [exact W2|]. rewrite sapp_assoc. now constructor. Qed.
Lemma whole_end s t : one_line t -> whole (s ++ t).
Proof.
  intros OT. destruct (split_lines s) as (ls & w & F & N & ->). rewrite sapp_assoc. apply whole_app; [now apply cat_whole|].
  destruct OT as (u & NU & ->). rewrite <- sapp_assoc. rewrite <- (sapp_nil ((w ++ u) ++ newline)). constructor; [|constructor]. exists (w ++ u)%string. split; [|reflexivity].
  clear F. induction w as [|c w IH]; [exact NU|]. destruct N. split; auto.
Qed.
Lemma one_occurs l s : one_line l -> occurs marker (l ++ s) = true -> occurs marker l = true \/ occurs marker s = true.
Proof.
  intros (w & NN & ->) H. rewrite sapp_assoc in H. cbn [newline append] in H. destruct marker_ok as (M1 & M2). apply occurs_cut in H; auto.
  destruct H as [H|H]; [left; now apply occurs_left|now right].
Qed.
Lemma occurs_lines s : occurs marker s = true <-> exists l, In l (file_lines s) /\ occurs marker l = true.
Proof.
  split.
  - destruct (split_lines s) as (ls & w & F & N & ->). rewrite lines_cat by auto. induction ls as [|l ls IH]; cbn [cat fold_right app]; intros H.
    + cbn [append] in H. rewrite lines_tail by auto. destruct (String.eqb_spec w ""); [subst; discriminate|]. exists w. split; [now left|auto].
    + fold (cat ls) in H. rewrite sapp_assoc in H. apply one_occurs in H; [|apply F; now left]. destruct H as [H|H].
      * exists l. split; [now left|auto].
      * destruct IH as (k & I & K); auto; [intros; apply F; now right|]. exists k. split; [now right|auto].
  - intros (l & I & H). rewrite <- (cat_lines s). induction (file_lines s) as [|k ks IH]; [destruct I|]. cbn. destruct I as [->|I]; [now apply occurs_left|apply occurs_right; auto].
Qed.
Lemma not_occurs_lines s : occurs marker s = false -> forall l, In l (file_lines s) -> occurs marker l = false.
Proof. intros H l I. destruct (occurs marker l) eqn:E; [|reflexivity]. assert (occurs marker s = true) by (apply occurs_lines; eauto). congruence. Qed.

(** ** What is written *)
Definition chunk (svgpan line : string) : list string :=
  if prefix "<svg " line then [svg_header; script_open; svgpan; script_close; group_open]
  else if prefix "</svg>" line then [group_close; line] else [line].

Definition pan_step (svgpan : string) (destin_lines : list string) (line : string) : result (list string) :=
  if occurs marker line then Raise ValueError
  else if prefix "<svg " line then Ok (destin_lines ++ [svg_header; script_open; svgpan; script_close; group_open])
  else if prefix "</svg>" line then Ok (destin_lines ++ [group_close; line])
  else Ok (destin_lines ++ [line]).
Lemma pan_Ok svgpan lines : (forall l, In l lines -> occurs marker l = false) -> forall acc, foldM (pan_step svgpan) lines acc = Ok (acc ++ flat_map (chunk svgpan) lines).
Proof.
  intros H. induction lines as [|l lines IH]; intros acc; [cbn; now rewrite app_nil_r|].
  cbn [foldM flat_map]. unfold pan_step at 1. rewrite (H l (or_introl eq_refl)). unfold chunk at 1. rewrite app_assoc.
  destruct (prefix "<svg " l); [|destruct (prefix "</svg>" l)]; cbn [bind]; apply IH; intros; apply H; now right.
Qed.
Lemma panned_Ok svgpan lines : (forall l, In l lines -> occurs marker l = false) -> panned svgpan lines = Ok (flat_map (chunk svgpan) lines).
Proof. intros H. exact (pan_Ok svgpan lines H []). Qed.
Lemma panned_raise svgpan lines : (exists l, In l lines /\ occurs marker l = true) -> panned svgpan lines = Raise ValueError.
Proof.
  intros H. change (foldM (pan_step svgpan) lines [] = Raise ValueError). revert H. generalize (@nil string) as acc. induction lines as [|l lines IH]; intros acc (k & I & K); [destruct I|]. cbn [foldM]. unfold pan_step at 1.
  destruct (occurs marker l) eqn:E; [reflexivity|]. destruct I as [->|I]; [congruence|].
  destruct (prefix "<svg " l); [|destruct (prefix "</svg>" l)]; cbn [bind]; apply IH; eauto.
Qed.

Lemma set_same fs p c : set_file fs p c p = Some c.
Proof. unfold set_file. now rewrite String.eqb_refl. Qed.
Lemma set_other fs p c q : q <> p -> set_file fs p c q = fs q.
Proof. intros N. unfold set_file. now rewrite (proj2 (String.eqb_neq _ _) N). Qed.

Lemma write_final lines : forall fs p old, fs p = Some old -> last (fs :: write_lines fs p lines) (fun _ => None) p = Some (old ++ cat lines)%string.
Proof.
  induction lines as [|l lines IH]; intros fs p old E; [cbn; now rewrite sapp_nil|].
  cbn [write_lines]. change (last (fs :: ?x :: ?y) _) with (last (x :: y) (fun _ : string => @None string)).
  rewrite (IH _ p (old ++ l)%string). { cbn. now rewrite sapp_assoc. } unfold append_file. rewrite E. apply set_same.
Qed.
Lemma write_other lines : forall fs p st q, In st (write_lines fs p lines) -> q <> p -> st q = fs q.
Proof.
  induction lines as [|l lines IH]; intros fs p st q I N; [destruct I|]. cbn [write_lines] in I. destruct I as [<-|I].
  - unfold append_file. now apply set_other.
  - rewrite (IH _ _ _ _ I N). unfold append_file. now apply set_other.
Qed.

Definition target (source : string) (destin : option string) : string := match destin with None => source | Some d => d end.

Lemma runs svgpan fs source destin content : fs source = Some content -> occurs marker content = false ->
  exists states, add_panning_to_svg svgpan fs source destin = (Ok tt, states) /\
    finally states (target source destin) = Some (cat (flat_map (chunk svgpan) (file_lines content))) /\
    (exists st, In st states /\ st (target source destin) = Some "") /\
    forall st p, In st states -> p <> target source destin -> st p = fs p.
Proof.
  intros E N. unfold add_panning_to_svg. rewrite E, (panned_Ok svgpan (file_lines content) (not_occurs_lines _ N)). fold (target source destin).
  eexists. split; [reflexivity|]. unfold finally. change (last (fs :: ?x :: ?y) _) with (last (x :: y) (fun _ : string => @None string)). split.
  - rewrite (write_final _ _ _ ""); [reflexivity|apply set_same].
  - split; [eexists; split; [right; now left|apply set_same]|]. intros st p [<-|[<-|I]] NP; [reflexivity|now apply set_other|]. rewrite (write_other _ _ _ _ _ I NP). now apply set_other.
Qed.

(** Only the target changes, and only if nothing is raised. *)
Lemma C71_others : forall svgpan fs source destin outcome states, add_panning_to_svg svgpan fs source destin = (outcome, states) ->
  hd_error states = Some fs /\ (outcome <> Ok tt -> states = [fs]) /\
  forall st p, In st states -> p <> match destin with None => source | Some d => d end -> st p = fs p.
Proof.
  intros svgpan fs source destin outcome states H. destruct (fs source) as [content|] eqn:E.
  2: { unfold add_panning_to_svg in H. rewrite E in H. injection H as <- <-. split; [reflexivity|]. split; [auto|]. intros st p [<-|[]] _. reflexivity. }
  destruct (occurs marker content) eqn:O.
  - unfold add_panning_to_svg in H. rewrite E, (panned_raise svgpan (file_lines content)) in H by now apply occurs_lines. injection H as <- <-.
    split; [reflexivity|]. split; [auto|]. intros st p [<-|[]] _. reflexivity.
  - destruct (runs svgpan fs source destin content E O) as (states' & E' & _ & _ & OT). rewrite H in E'. injection E' as -> <-. split; [|split; [congruence|exact OT]].
    unfold add_panning_to_svg in H. rewrite E, (panned_Ok svgpan (file_lines content) (not_occurs_lines _ O)) in H. injection H as <-. reflexivity.
Qed.

Lemma within_app {A} (a b c d : list A) : within a c -> within b d -> within (a ++ b) (c ++ d).
Proof. induction 1; intros H2; cbn; auto; now constructor; apply IHwithin. Qed.
Lemma within_refl {A} (a : list A) : within a a.
Proof. induction a; [constructor|apply within_keep; auto]. Qed.
Lemma within_none {A} (a : list A) : within [] a.
Proof. induction a; constructor; auto. Qed.

(** The other lines are kept. *)
Lemma chunk_lines svgpan l s : one_line l -> exists ms, file_lines (cat (chunk svgpan l) ++ s) = ms ++ file_lines s /\
  within (if prefix "<svg " l then [] else [l]) ms.
Proof.
  intros OL. unfold chunk. destruct (prefix "<svg " l); [|destruct (prefix "</svg>" l)].
  - exists (file_lines (cat [svg_header; script_open; svgpan; script_close; group_open])). split; [|apply within_none]. apply lines_whole.
    cbn [cat fold_right]. rewrite sapp_nil. rewrite <- !sapp_assoc. apply whole_end. eexists. split; [|reflexivity]. cbn. repeat split; discriminate.
  - exists [group_close; l]. split; [|constructor; apply within_refl]. cbn [cat fold_right]. rewrite sapp_nil. rewrite sapp_assoc, lines_one, lines_one; auto. eexists. split; [|reflexivity]. cbn. repeat split; discriminate.
  - exists [l]. split; [|apply within_refl]. cbn [cat fold_right]. rewrite sapp_nil. now apply lines_one.
Qed.
Lemma chunk_tail svgpan w : no_newline w -> within (filter (fun l => negb (prefix "<svg " l)) (file_lines w)) (file_lines (cat (flat_map (chunk svgpan) (file_lines w)))).
Proof.
  intros N. rewrite lines_tail by auto. destruct (String.eqb_spec w "") as [->|NE]; [constructor|]. cbn [flat_map filter app].
  rewrite app_nil_r. unfold chunk. destruct (prefix "<svg " w) eqn:P; cbn [negb]; [apply within_none|]. destruct (prefix "</svg>" w).
  - cbn [cat fold_right]. rewrite sapp_nil. rewrite lines_one by (eexists; split; [|reflexivity]; cbn; repeat split; discriminate). rewrite lines_tail by auto.
    rewrite (proj2 (String.eqb_neq _ _) NE). constructor. apply within_refl.
  - cbn [cat fold_right]. rewrite sapp_nil, lines_tail by auto. rewrite (proj2 (String.eqb_neq _ _) NE). apply within_refl.
Qed.
Lemma kept_lines svgpan content : within (filter (fun l => negb (prefix "<svg " l)) (file_lines content)) (file_lines (cat (flat_map (chunk svgpan) (file_lines content)))).
Proof.
  destruct (split_lines content) as (ls & w & F & N & ->). rewrite lines_cat by auto. rewrite filter_app, flat_map_app, cat_app. induction ls as [|l ls IH]; [cbn [filter flat_map app cat fold_right append]; now apply chunk_tail|].
  cbn [flat_map]. rewrite cat_app, sapp_assoc. destruct (chunk_lines svgpan l (cat (flat_map (chunk svgpan) ls) ++ cat (flat_map (chunk svgpan) (file_lines w))) (F l (or_introl eq_refl))) as (ms & -> & W).
  specialize (IH (fun k I => F k (or_intror I))). cbn [filter]. destruct (prefix "<svg " l); cbn [negb].
  - apply (within_app [] _ ms); auto.
  - cbn [app]. apply (within_app [l] _ ms); auto.
Qed.

Lemma C71_kept : forall svgpan fs source destin content, fs source = Some content -> occurs "SVGPan library" content = false ->
  exists states new, add_panning_to_svg svgpan fs source destin = (Ok tt, states) /\
    finally states (match destin with None => source | Some d => d end) = Some new /\
    within (filter (fun l => negb (prefix "<svg " l)) (file_lines content)) (file_lines new).
Proof.
  intros svgpan fs source destin content E O. destruct (runs svgpan fs source destin content E O) as (states & E' & F & _). eexists _, _. split; [exact E'|]. split; [exact F|]. apply kept_lines.
Qed.

(** A drawing is wrapped. *)
Lemma no_tags_chunks svgpan s : no_tags s -> cat (flat_map (chunk svgpan) (file_lines s)) = s.
Proof.
  intros H. rewrite <- (cat_lines s) at 2. unfold no_tags in H. induction (file_lines s) as [|l ls IH]; [reflexivity|]. cbn [flat_map]. rewrite cat_app, IH by (intros; apply H; now right).
  destruct (H l (or_introl eq_refl)) as (H1 & H2). unfold chunk. rewrite H1, H2. cbn. now rewrite sapp_nil.
Qed.
Lemma C71_wraps : forall svgpan fs source destin pre open body close post,
  fs source = Some (pre ++ open ++ body ++ close ++ post)%string -> occurs "SVGPan library" (pre ++ open ++ body ++ close ++ post) = false ->
  whole pre -> no_tags pre -> one_line open -> prefix "<svg " open = true -> whole body -> no_tags body ->
  one_line close -> prefix "</svg>" close = true -> no_tags post ->
  exists states, add_panning_to_svg svgpan fs source destin = (Ok tt, states) /\
    finally states (match destin with None => source | Some d => d end) =
    Some (pre ++ svg_header ++ script_open ++ svgpan ++ script_close ++ group_open ++ body ++ group_close ++ close ++ post)%string.
Proof.
  intros svgpan fs source destin pre open body close post E O W1 T1 O1 P1 W2 T2 O2 P2 T3.
  destruct (runs svgpan fs source destin _ E O) as (states & E' & F & _). exists states. split; [exact E'|]. etransitivity; [exact F|]. f_equal.
  rewrite lines_whole, lines_one, lines_whole, lines_one by auto. rewrite !flat_map_app. cbn [flat_map]. rewrite !flat_map_app. cbn [flat_map]. rewrite !cat_app, !no_tags_chunks by auto.
  assert (C1 : chunk svgpan open = [svg_header; script_open; svgpan; script_close; group_open]) by (unfold chunk; now rewrite P1).
  assert (C2 : chunk svgpan close = [group_close; close]).
  { unfold chunk. destruct (prefix "<svg " close) eqn:Q; [|now rewrite P2]. exfalso. destruct close as [|a [|b close]]; try discriminate. cbn [prefix] in P2, Q.
    - destruct (Ascii.ascii_dec "<" a); discriminate P2.
    - cbn [prefix] in P2, Q. destruct (Ascii.ascii_dec "<" a) as [_|]; [|discriminate P2]. destruct (Ascii.ascii_dec "/" b) as [EB|]; [|discriminate P2]. subst b. destruct (Ascii.ascii_dec "s" "/") as [X|_]; [discriminate X|discriminate Q]. }
  rewrite C1, C2. cbn [cat fold_right]. rewrite !sapp_nil, !sapp_assoc. reflexivity.
Qed.

(** A second time. *)
Lemma C71_second : forall svgpan fs source content, fs source = Some content -> occurs "SVGPan library" content = false ->
  (exists l, In l (file_lines content) /\ prefix "<svg " l = true) -> occurs "SVGPan library" svgpan = true ->
  exists states, add_panning_to_svg svgpan fs source None = (Ok tt, states) /\
    forall destin, add_panning_to_svg svgpan (finally states) source destin = (Raise ValueError, [finally states]).
Proof.
  intros svgpan fs source content E O (l & I & P) S. destruct (runs svgpan fs source None content E O) as (states & E' & F & _). exists states. split; [exact E'|].
  intros destin. unfold add_panning_to_svg. cbn [target] in F. rewrite F. rewrite panned_raise; [reflexivity|]. apply occurs_lines. clear F E' E O.
  induction (file_lines content) as [|k ks IH]; [destruct I|]. cbn [flat_map]. rewrite cat_app. destruct I as [->|I].
  - apply occurs_left. unfold chunk. rewrite P. cbn [cat fold_right]. apply occurs_right, occurs_right, occurs_left. exact S.
  - apply occurs_right. auto.
Qed.

(** A crash. *)
Lemma C71_crash : forall svgpan fs source content, fs source = Some content -> occurs "SVGPan library" content = false ->
  exists states st, add_panning_to_svg svgpan fs source None = (Ok tt, states) /\ In st states /\ st source = Some "".
Proof.
  intros svgpan fs source content E O. destruct (runs svgpan fs source None content E O) as (states & E' & _ & (st & I & S) & _). exists states, st. auto.
Qed.
