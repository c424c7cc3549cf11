Set Warnings "-notation-overridden,-ambiguous-paths".
From Coq Require Import Ascii String DecimalString DecimalNat DecimalFacts.
From mathcomp Require Import all_ssreflect zify.
From Verif Require Import Py Dict LoadModel LoadSpec.
Set Implicit Arguments. Unset Strict Implicit. Unset Printing Implicit Defensive.
Local Open Scope string_scope. Local Open Scope seq_scope.

(* ---- strings *)
Fixpoint us (s : string) : nat := if s is String a s' then (Ascii.eqb a "_"%char + us s')%N else 0.
Lemma us_app a b : us (a +++ b) = (us a + us b)%N.
Proof. by elim: a => //= c a ->; rewrite addnA. Qed.
Lemma split_us d1 m1 d2 m2 : us d1 = 0 -> us d2 = 0 -> d1 +++ String "_" m1 = d2 +++ String "_" m2 -> d1 = d2 /\ m1 = m2.
Proof.
elim: d1 d2 => [|a d1 IH] [|b d2] //=.
- by move=> _ _ [->].
- by move=> _ h2 [e _]; move: h2; rewrite -e.
- by move=> h1 _ [e _]; move: h1; rewrite e.
move=> h1 h2 [-> e]; case: (IH d2) => //; try lia. by move=> -> ->.
Qed.
Lemma ident_pair d m : dhas settings (d +++ "_" +++ m) = ((d, m) \in [seq p.1 | p <- published]).
Proof.
apply/idP/idP => [h|]; last first.
  by rewrite !inE; do 5!(case/orP; first by case/eqP=> -> ->); case/eqP=> -> ->.
have u : us (d +++ "_" +++ m) = 1.
  by move: h; rewrite /dhas /= !inE; do 5!(case/orP; first by move/eqP->); move/eqP->.
have [ud um] : us d = 0 /\ us m = 0 by move: u; rewrite us_app /=; lia.
have sp a b : us a = 0 -> d +++ "_" +++ m = a +++ String "_" b -> (d, m) = (a, b).
  by move=> ua e; case: (split_us ud ua e) => -> ->.
by move: h; rewrite /dhas /= !inE;
   do 5!(case/orP; first by move/eqP => e; first
     [ by rewrite (sp "mnist" "mlp" erefl e) | by rewrite (sp "mnist" "lr" erefl e)
     | by rewrite (sp "cifar2" "resnet9" erefl e) | by rewrite (sp "shakespeare" "nanogpt" erefl e)
     | by rewrite (sp "maestro" "musictransformer" erefl e) ]);
   move/eqP => e; rewrite (sp "wikitext2" "gpt2" erefl e).
Qed.

Lemma str_nat_inj : injective str_nat.
Proof.
move=> i j e; apply: Unsigned.to_uint_inj.
have := congr1 NilEmpty.uint_of_string e; rewrite /str_nat !NilEmpty.usu. by case.
Qed.

Lemma setting_of d m a b : (d, m, (a, b)) \in published ->
  [/\ dget settings (d +++ "_" +++ m) = Some (Setting (d == "shakespeare") a b), d \in supported_datasets
    & (d == "wikitext2") = (d +++ "_" +++ m == "wikitext2_gpt2")].
Proof. by rewrite !inE; do 5!(case/orP; first by case/eqP=> -> -> -> ->); case/eqP=> -> -> -> ->. Qed.

Section Load.
Variables (C V D : Type) (archive : C -> res (subdir C)) (load : C -> res V) (mkdata : string -> res D).
Notation subdir := (subdir C).
Notation fs := (fs C).
Implicit Types (w : fs) (d : subdir).

Definition sub w (id key : string) : option subdir := obind (fun i => dget i key) (dget w id).
Lemma sub_change w id key f id' key' :
  sub (change w id key f) id' key' =
  if (id' == id) && (key' == key) then Some (f (odflt (empty C) (sub w id key))) else sub w id' key'.
Proof.
rewrite /sub /change dgetE; case: (id' =P id) => [->|//] /=; rewrite dgetE; case: (key' =P key) => [e|_].
  by case: (dget w id).
by case: (dget w id).
Qed.
Lemma dhas_change w id key f id' : dhas (change w id key f) id' = (id' == id) || dhas w id'.
Proof. by rewrite /change dhas_set. Qed.
Lemma dget_change w id key f id' : id' != id -> dget (change w id key f) id' = dget w id'.
Proof. by move=> h; rewrite /change dgetE (negbTE h). Qed.
Lemma file_atE w id key name : file_at w id key name = obind (fun d => dget (s_files d) name) (sub w id key).
Proof. by []. Qed.
Lemma foldersE w id key : folders w id key = omap (fun d => dkeys (s_dirs d)) (sub w id key).
Proof. by []. Qed.
Lemma countE w id key : count_folders w id key = if folders w id key is Some l then Ok (size l) else Err FileNotFoundError.
Proof. by rewrite /count_folders /folders; case: (obind _ _) => //= d; rewrite size_map. Qed.
Lemma readE w id key name : read load w id key name = if file_at w id key name is Some c then load c else Err FileNotFoundError.
Proof. by []. Qed.

Lemma keys_extract (z d : subdir) : uniq (dkeys (s_dirs z)) ->
  dkeys (s_dirs (extract z d)) = dkeys (s_dirs d) ++ [seq k <- dkeys (s_dirs z) | k \notin dkeys (s_dirs d)].
Proof.
rewrite /extract /=; move: (s_dirs z) (s_dirs d) => l; elim: l => [|[k v] l IH] d0 /=; first by rewrite cats0.
case/andP=> nk u; rewrite IH // dkeys_set /dhas -/(dkeys d0); case: ifP => [kd|/negbT kd] /=; first by [].
rewrite -cats1 -catA cat1s; congr (_ ++ _ :: _); apply: eq_in_filter => k' k'l.
rewrite mem_cat inE negb_or; case: (k' =P k) k'l nk => [-> -> //|_ _ _]; by rewrite andbT.
Qed.

(* ---- one download *)
Notation download := (download archive).
Notation fetch := (fetch archive).
(* an answer that makes the download raise *)
Definition fatal (srv : string -> answer C) (x : item) : bool :=
  match srv (i_url x) with
  | NoAnswer _ | Cut _ _ _ => true
  | Status n => n != 404
  | Full c => i_unzip x && (if archive c is Err _ then true else false)
  end.
Lemma download_res srv w id x : if fatal srv x then exists e, (download srv w id x).2 = Err e
                                else (download srv w id x).2 = Ok tt.
Proof.
rewrite /fatal /download; case: (srv _) => [e|c|z c e|n] /=; try by exists e.
  by case: (i_unzip x) => //=; case: (archive c) => //= e; exists e.
by case: (n == 404) => //=; exists ValueError.
Qed.
Lemma download_frame srv w id x id' : id' != id -> dget (download srv w id x).1 id' = dget w id'.
Proof.
move=> h; rewrite /download; case: (srv _) => [e|c|z c e|n] /=; rewrite ?dget_change //.
by case: (i_unzip x) => /=; [case: (archive c) => [z|e]|]; rewrite /= dget_change.
Qed.
Lemma download_sub srv w id x id' key : (id' != id) || (key != i_key x) -> sub (download srv w id x).1 id' key = sub w id' key.
Proof.
rewrite -negb_and => /negbTE h; rewrite /download; case: (srv _) => [e|c|z c e|n] /=; rewrite ?sub_change ?h //.
by case: (i_unzip x) => /=; [case: (archive c) => [z|e]|]; rewrite /= sub_change h.
Qed.
Lemma download_file srv w id x key name : ~~ i_unzip x -> name != i_name x ->
  file_at (download srv w id x).1 id key name = file_at w id key name.
Proof.
move=> /negbTE hu hn; rewrite !file_atE.
case: (key =P i_key x) => [->|/eqP hk]; last by rewrite download_sub // hk orbT.
rewrite /download hu; case: (srv _) => [e|c|z c e|n] //=; rewrite sub_change !eqxx /= ?dgetE ?(negbTE hn);
  by case: (sub w id (i_key x)).
Qed.
Lemma download_has srv w id x : dhas (download srv w id x).1 id = dhas w id || (if srv (i_url x) is NoAnswer _ then false else true).
Proof.
rewrite /download; case: (srv _) => [e|c|z c e|n] /=; rewrite ?dhas_change ?eqxx ?orbT ?orbF //.
by case: (i_unzip x) => /=; [case: (archive c) => [z|e]|]; rewrite /= dhas_change eqxx.
Qed.

Lemma fetch_cat srv w id l1 l2 :
  fetch srv w id (l1 ++ l2) = if (fetch srv w id l1).2 is Ok _ then fetch srv (fetch srv w id l1).1 id l2 else fetch srv w id l1.
Proof.
elim: l1 w => [|x l1 IH] w //=; case e: (download srv w id x) => [w' [[]|er]] //=.
Qed.
Lemma fetch_frame srv w id l id' : id' != id -> dget (fetch srv w id l).1 id' = dget w id'.
Proof.
move=> h; elim: l w => [|x l IH] w //=; case e: (download srv w id x) => [w' [[]|er]] /=;
  rewrite ?IH; have := download_frame srv w x h; by rewrite e.
Qed.
Lemma fetch_sub srv w id l id' key : (id' != id) || (key \notin [seq i_key x | x <- l]) -> sub (fetch srv w id l).1 id' key = sub w id' key.
Proof.
elim: l w => [|x l IH] w //=; rewrite inE negb_or => h.
have hx : (id' != id) || (key != i_key x) by case/orP: h => [->//|/andP [-> _]]; rewrite orbT.
have hl : (id' != id) || (key \notin [seq i_key x | x <- l]) by case/orP: h => [->//|/andP [_ ->]]; rewrite orbT.
case e: (download srv w id x) => [w' [[]|er]] /=; rewrite ?IH //; have := download_sub srv w hx; by rewrite e.
Qed.
Lemma fetch_file srv w id l key name : all (fun x => (key != i_key x) || (~~ i_unzip x && (name != i_name x))) l ->
  file_at (fetch srv w id l).1 id key name = file_at w id key name.
Proof.
elim: l w => [|x l IH] w //= /andP [hx hl].
have hd : file_at (download srv w id x).1 id key name = file_at w id key name.
  case/orP: hx => [hk|/andP [h1 h2]]; last exact: download_file.
  by rewrite !file_atE download_sub // hk orbT.
by case e: (download srv w id x) hd => [w' [[]|er]] /= hd; rewrite ?IH.
Qed.
Lemma fetch_res srv w id l : if has (fatal srv) l then exists e, (fetch srv w id l).2 = Err e else (fetch srv w id l).2 = Ok tt.
Proof.
elim: l w => [|x l IH] w //=; have := download_res srv w id x; case: (fatal srv x) => /=.
  by case=> e; case: (download srv w id x) => w' r /= ->; exists e.
by case: (download srv w id x) => w' r /= ->; exact: IH.
Qed.
Lemma fetch_stop srv w id l1 l2 : has (fatal srv) l1 -> fetch srv w id (l1 ++ l2) = fetch srv w id l1.
Proof. by move=> h; rewrite fetch_cat; have := fetch_res srv w id l1; rewrite h => -[e ->]. Qed.

Lemma fetch_mono srv w id l : dhas w id -> dhas (fetch srv w id l).1 id.
Proof.
elim: l w => [|x l IH] w h //=; have := download_has srv w id x; rewrite h orTb.
case: (download srv w id x) => w' [[]|er] //=; exact: IH.
Qed.
Lemma fetch_has srv w id x l :
  dhas (fetch srv w id (x :: l)).1 id = dhas w id || (if srv (i_url x) is NoAnswer _ then false else true).
Proof.
have e := download_has srv w id x; cbn [LoadModel.fetch].
case: (boolP (fatal srv x)) (download_res srv w id x) => [_ [er]|nf].
  by case: (download srv w id x) e => w' r /= e ->.
case: (download srv w id x) e => w' r /= e ->.
have a : (if srv (i_url x) is NoAnswer _ then false else true) = true by move: nf; rewrite /fatal; case: (srv _).
by rewrite a orbT in e *; exact: fetch_mono.
Qed.

(* ---- the list of downloads *)
Lemma itemsE id : dhas settings id ->
  items id = [:: Item "models_full" (base id +++ id +++ "_full.zip?download=true") true "file.zip";
                 Item "models_half" (base id +++ id +++ "_half.zip?download=true") true "file.zip";
                 Item "lds" (base id +++ "lds/indices_lds.pt?download=true") false "indices_lds.pt";
                 Item "lds" (base id +++ "lds/target_values_lds.pt?download=true") false "target_values_lds.pt"] ++
             (if id == "wikitext2_gpt2" then [::] else
             [:: Item "loo" (base id +++ "loo/indices_loo.pt?download=true") false "indices_loo.pt";
                 Item "loo" (base id +++ "loo/target_values_loo.pt?download=true") false "target_values_loo.pt"]).
Proof. by rewrite /dhas /= !inE; do 5!(case/orP; first by move/eqP->; vm_compute); move/eqP->; vm_compute. Qed.

Definition put (name : string) (c : C) (d : subdir) : subdir := Sub (s_dirs d) (dset (s_files d) name c).
Lemma download_zip srv w id key url nm c z : srv url = Full c -> archive c = Ok z ->
  download srv w id (Item key url true nm) = (change w id key (extract z), Ok tt).
Proof. by rewrite /download /= => -> /= ->. Qed.
Lemma download_bytes srv w id key url nm c : srv url = Full c ->
  download srv w id (Item key url false nm) = (change w id key (put nm c), Ok tt).
Proof. by rewrite /download /= => ->. Qed.
Lemma files_put2 n1 c1 n2 c2 (o : option subdir) :
  Some (put n2 c2 (odflt (empty C) (Some (put n1 c1 (odflt (empty C) o))))) = Some (put n2 c2 (put n1 c1 (odflt (empty C) o))).
Proof. by []. Qed.

(* the first four downloads *)
Definition items4 (id : string) : seq item :=
  [:: Item "models_full" (base id +++ id +++ "_full.zip?download=true") true "file.zip";
      Item "models_half" (base id +++ id +++ "_half.zip?download=true") true "file.zip";
      Item "lds" (base id +++ "lds/indices_lds.pt?download=true") false "indices_lds.pt";
      Item "lds" (base id +++ "lds/target_values_lds.pt?download=true") false "target_values_lds.pt"].
Definition items2 (id : string) : seq item :=
  [:: Item "loo" (base id +++ "loo/indices_loo.pt?download=true") false "indices_loo.pt";
      Item "loo" (base id +++ "loo/target_values_loo.pt?download=true") false "target_values_loo.pt"].
Lemma items_split id : dhas settings id -> items id = items4 id ++ (if id == "wikitext2_gpt2" then [::] else items2 id).
Proof. exact: itemsE. Qed.

Lemma fetch4 srv w id (p : published_files C) :
  (exists2 c, srv (base id +++ id +++ "_full.zip?download=true") = Full c & archive c = Ok (p_full p)) ->
  (exists2 c, srv (base id +++ id +++ "_half.zip?download=true") = Full c & archive c = Ok (p_half p)) ->
  srv (base id +++ "lds/indices_lds.pt?download=true") = Full (p_ilds p) ->
  srv (base id +++ "lds/target_values_lds.pt?download=true") = Full (p_tlds p) ->
  let w' := (fetch srv w id (items4 id)).1 in
  [/\ fetch srv w id (items4 id) = (w', Ok tt), dhas w' id,
      sub w' id "models_full" = Some (extract (p_full p) (odflt (empty C) (sub w id "models_full"))),
      sub w' id "models_half" = Some (extract (p_half p) (odflt (empty C) (sub w id "models_half")))
    & sub w' id "lds" = Some (put "target_values_lds.pt" (p_tlds p) (put "indices_lds.pt" (p_ilds p) (odflt (empty C) (sub w id "lds"))))].
Proof.
move=> [c1 a1 b1] [c2 a2 b2] a3 a4; rewrite /items4 /=.
rewrite (download_zip _ _ _ _ a1 b1) (download_zip _ _ _ _ a2 b2) (download_bytes _ _ _ _ a3) (download_bytes _ _ _ _ a4) /=.
by split=> //; rewrite ?dhas_change ?eqxx // !sub_change !eqxx.
Qed.
Lemma fetch2 srv w id (p : published_files C) :
  srv (base id +++ "loo/indices_loo.pt?download=true") = Full (p_iloo p) ->
  srv (base id +++ "loo/target_values_loo.pt?download=true") = Full (p_tloo p) ->
  let w' := (fetch srv w id (items2 id)).1 in
  [/\ fetch srv w id (items2 id) = (w', Ok tt)
    & sub w' id "loo" = Some (put "target_values_loo.pt" (p_tloo p) (put "indices_loo.pt" (p_iloo p) (odflt (empty C) (sub w id "loo"))))].
Proof.
move=> a3 a4; rewrite /items2 /=.
rewrite (download_bytes _ _ _ _ a3) (download_bytes _ _ _ _ a4) /=.
by split=> //; rewrite !sub_change !eqxx.
Qed.

(* ---- calls *)
Notation exec := (exec archive load mkdata).
Notation run := (run archive load mkdata).
Definition ident (c : call C) : string := c_dataset c +++ "_" +++ c_model c.
Lemma exec_frame w c id : (id != ident c) || (dhas w id && ~~ c_re c) -> dget (exec w c).1 id = dget w id.
Proof.
rewrite /exec /load_benchmark -/(ident c) => h; case: (dget settings _) => [g|]; last by [].
move: (items _) => l; case: (id =P ident c) h => [-> /andP [-> /negbTE ->]|/eqP hn _]; first by [].
case: ifP => _ //; have := fetch_frame (c_srv c) w l hn.
by case: (fetch _ _ _ _).
Qed.
Lemma run_frame w h id : dhas w id -> all (fun c => (id != ident c) || ~~ c_re c) h -> dget (run w h) id = dget w id.
Proof.
elim: h w => [|c h IH] w //= hw /andP [hc hh].
have e : dget (exec w c).1 id = dget w id.
  by apply: exec_frame; rewrite hw; case/orP: hc => ->; rewrite ?orbT.
by rewrite IH // dget_has e -dget_has.
Qed.
(* a call that does not download reads the entry of its setting only *)
Lemma exec_cached w w' c srv : dhas w (ident c) -> ~~ c_re c -> dget w' (ident c) = dget w (ident c) ->
  exec w' (Call srv (c_model c) (c_dataset c) (c_metric c) false) = (w', (exec w c).2).
Proof.
move=> hw /negbTE hr e; rewrite /exec /load_benchmark; cbn [c_srv c_model c_dataset c_metric c_re]; rewrite -/(ident c) hr.
move: (items _) => l; case: (dget settings _) => [g|] //=.
have -> : dhas w' (ident c) by rewrite dget_has e -dget_has.
by rewrite hw /=; congr (_, _); rewrite /count_folders /read e.
Qed.
(* the value of a call, from the files *)
Lemma exec_value w c (d m : string) (a b : nat) : (d, m, (a, b)) \in published -> c_dataset c = d -> c_model c = m ->
  let w' := (exec w c).1 in
  (exec w c).2 =
  rbind (if ~~ dhas w (ident c) || c_re c then (fetch (c_srv c) w (ident c) (items (ident c))).2 else Ok tt) (fun _ =>
  rbind (count_folders w' (ident c) "models_full") (fun nf =>
  rbind (count_folders w' (ident c) "models_half") (fun nh =>
  rbind (mkdata d) (fun ds =>
  rbind (read load w' (ident c) (c_metric c) ("target_values_" +++ c_metric c +++ ".pt")) (fun tv =>
  rbind (read load w' (ident c) (c_metric c) ("indices_" +++ c_metric c +++ ".pt")) (fun ix =>
  Ok (Result (if d == "shakespeare" then Argument m else Made (d +++ "_" +++ m)) (paths (ident c) "models_full" nf)
     (paths (ident c) "models_half" nh) ds a b (d != "shakespeare") tv ix))))))) /\
  w' = if ~~ dhas w (ident c) || c_re c then (fetch (c_srv c) w (ident c) (items (ident c))).1 else w.
Proof.
move=> /setting_of [e1 e2 _] ed em; rewrite /exec /load_benchmark -/(ident c).
have ei : ident c = d +++ "_" +++ m by rewrite /ident ed em.
rewrite -ei in e1 *; rewrite e1 ed e2 em; move: (items _) => l /=.
by case: ifP => _; [case: (fetch _ _ _ _)|].
Qed.
End Load.
