(* Predefined benchmarks and their download cache (C53). *)
Set Warnings "-notation-overridden,-ambiguous-paths".
From Coq Require Import Ascii String DecimalString.
From mathcomp Require Import all_ssreflect zify.
From Verif Require Import Py Dict LoadModel LoadSpec LoadProof.
Set Implicit Arguments. Unset Strict Implicit. Unset Printing Implicit Defensive.
Local Open Scope string_scope. Local Open Scope seq_scope.

Section Props.
Variables (C V D : Type) (archive : C -> res (subdir C)) (load : C -> res V) (mkdata : string -> res D).
Notation exec := (exec archive load mkdata).
Notation run := (run archive load mkdata).
Implicit Types (w : fs C) (c : call C).
Notation setting_id c := (c_dataset c +++ "_" +++ c_model c).

(* a combination that is not one of the six is a ValueError, whatever the server and the cache, and nothing is written *)
Theorem C53_unsupported w c :
  (c_dataset c, c_model c) \notin [seq p.1 | p <- published] -> exec w c = (w, Err ValueError).
Proof.
rewrite -ident_pair dget_has /exec /load_benchmark; by case: (dget settings _).
Qed.

(* the contents of the six (four for wikitext2_gpt2) published files after a download: what an old cache left in the
   model directories stays *)
Theorem C53_download w c d m a b p tv ix v i ds :
  (d, m, (a, b)) \in published -> c_dataset c = d -> c_model c = m ->
  serves archive (c_srv c) (d +++ "_" +++ m) p -> wf_pub p ->
  ~~ dhas w (d +++ "_" +++ m) || c_re c ->
  truth p (c_metric c) = Some (tv, ix) -> (d = "wikitext2" -> c_metric c = "lds") ->
  load tv = Ok v -> load ix = Ok i -> mkdata d = Ok ds ->
  let id := d +++ "_" +++ m in
  let new key (z : subdir C) := let old := odflt [::] (folders w id key) in
    old ++ [seq k <- dkeys (s_dirs z) | k \notin old] in
  let fulls := new "models_full" (p_full p) in let halves := new "models_half" (p_half p) in
  exists w',
    [/\ exec w c = (w', Ok (Result (if d == "shakespeare" then Argument m else Made id)
                      [seq [:: id; "models_full"; str_nat j; "model_weights_0.pt"] | j <- iota 0 (size fulls)]
                      [seq [:: id; "models_half"; str_nat j; "model_weights_0.pt"] | j <- iota 0 (size halves)]
                      ds a b (d != "shakespeare") v i)),
        folders w' id "models_full" = Some fulls /\ folders w' id "models_half" = Some halves,
        file_at w' id "lds" "target_values_lds.pt" = Some (p_tlds p) /\ file_at w' id "lds" "indices_lds.pt" = Some (p_ilds p)
      & d <> "wikitext2" ->
        file_at w' id "loo" "target_values_loo.pt" = Some (p_tloo p) /\ file_at w' id "loo" "indices_loo.pt" = Some (p_iloo p)].
Proof.
move=> hp hd hm [s1 s2 [s3 s4] s56] /andP [wf1 wf2] hdl ht hw lv li ed id new fulls halves.
have [e1 e2 e3] := setting_of hp.
have hs : dhas settings id by rewrite dget_has /id e1.
have hid : ident c = id by rewrite /ident hd hm.
have [ev ew] := exec_value archive load mkdata w hp hd hm.
rewrite hid hdl in ev ew.
have [f4 h4 m1 m2 m3] := fetch4 w s1 s2 s3 s4.
set w4 := (fetch _ _ _ _ (items4 _)).1 in f4 h4 m1 m2 m3.
set w' := (exec w c).1 in ev ew.
have [fo sw] : (fetch archive (c_srv c) w id (items id)).2 = Ok tt /\
   [/\ sub w' id "models_full" = sub w4 id "models_full", sub w' id "models_half" = sub w4 id "models_half",
       sub w' id "lds" = sub w4 id "lds"
     & d <> "wikitext2" -> sub w' id "loo" = Some (put "target_values_loo.pt" (p_tloo p) (put "indices_loo.pt" (p_iloo p) (odflt (empty C) (sub w4 id "loo"))))].
  rewrite ew items_split // fetch_cat f4; cbn [fst snd]; case: ifP => wk.
    split=> //; split=> // nd; by move: e3; rewrite -/id wk => /eqP.
  have nw : d +++ "_" +++ m <> "wikitext2_gpt2" by move=> e; move: wk; rewrite /id e eqxx.
  have [s5 s6] := s56 nw.
  have [f2 m4] := fetch2 archive w4 s5 s6.
  split; [by rewrite f2|]; split; try (by rewrite fetch_sub // eqxx); by move=> _; exact: m4.
have [q1 q2 q3 q4] := sw.
have fu : folders w' id "models_full" = Some fulls.
  rewrite foldersE q1 m1 /= keys_extract //; congr Some; rewrite /fulls /new foldersE; by case: (sub w id _).
have ha : folders w' id "models_half" = Some halves.
  rewrite foldersE q2 m2 /= keys_extract //; congr Some; rewrite /halves /new foldersE; by case: (sub w id _).
have ft : file_at w' id "lds" "target_values_lds.pt" = Some (p_tlds p) by rewrite file_atE q3 m3 /= dgetE eqxx.
have fi : file_at w' id "lds" "indices_lds.pt" = Some (p_ilds p) by rewrite file_atE q3 m3 /= dgetE /= dgetE eqxx.
have gt : d <> "wikitext2" -> file_at w' id "loo" "target_values_loo.pt" = Some (p_tloo p) by move=> /q4 e; rewrite file_atE e /= dgetE eqxx.
have gi : d <> "wikitext2" -> file_at w' id "loo" "indices_loo.pt" = Some (p_iloo p) by move=> /q4 e; rewrite file_atE e /= dgetE /= dgetE eqxx.
exists w'; split=> //; last by move=> nd; split; [exact: gt|exact: gi].
rewrite [LHS]surjective_pairing -/w'; congr (_, _).
rewrite ev fo !countE fu ha ed; cbn [rbind].
have [rt ri] : file_at w' id (c_metric c) ("target_values_" +++ c_metric c +++ ".pt") = Some tv /\
  file_at w' id (c_metric c) ("indices_" +++ c_metric c +++ ".pt") = Some ix.
  move: ht hw; rewrite /truth; case: (c_metric c =P "lds") => [-> [<- <-] _|_]; first by split.
  case: (c_metric c =P "loo") => [-> [<- <-] nd|//].
  have nd' : d <> "wikitext2" by move=> /nd.
  by split; [exact: gt|exact: gi].
by rewrite !readE rt ri lv; cbn [rbind]; rewrite li.
Qed.

(* once the directory of a setting exists, calls without redownload for it never change it, and their outcome neither
   depends on the server nor on what other calls (without redownload for this setting) happened in between *)
Theorem C53_cached w c (h : seq (call C)) srv :
  dhas w (setting_id c) -> ~~ c_re c ->
  all (fun c' => (setting_id c' != setting_id c) || ~~ c_re c') h ->
  exec (run w h) (Call srv (c_model c) (c_dataset c) (c_metric c) false) = (run w h, (exec w c).2).
Proof.
move=> hw hr hh; apply: exec_cached => //; apply: run_frame => //.
by apply: sub_all hh => c'; rewrite /ident eq_sym.
Qed.
Theorem C53_other_settings w c id : id != setting_id c -> dget (exec w c).1 id = dget w id.
Proof. by move=> h; apply: exec_frame; rewrite /ident h. Qed.

(* a first call that breaks off at one of the first three files leaves a directory that is never repaired: every later
   call without redownload fails, whatever the server now offers.  Only when the very first request got no answer
   at all is the download tried again. *)
Theorem C53_stuck w c (h : seq (call C)) c' :
  (c_dataset c, c_model c) \in [seq p.1 | p <- published] -> ~~ dhas w (setting_id c) ->
  let id := setting_id c in
  let bad u zip := match c_srv c u with
    | NoAnswer _ | Cut _ _ _ => true | Status n => n != 404
    | Full x => zip && (if archive x is Err _ then true else false) end in
  [|| bad (base id +++ id +++ "_full.zip?download=true") true, bad (base id +++ id +++ "_half.zip?download=true") true
    | bad (base id +++ "lds/indices_lds.pt?download=true") false] ->
  [/\ exists e, (exec w c).2 = Err e,
      dhas (exec w c).1 id = (if c_srv c (base id +++ id +++ "_full.zip?download=true") is NoAnswer _ then false else true)
    & dhas (exec w c).1 id ->
      all (fun x => (setting_id x != id) || ~~ c_re x) h -> setting_id c' = id -> ~~ c_re c' ->
      c_metric c' \in [:: "lds"; "loo"] ->
      exists e, exec (run (exec w c).1 h) c' = (run (exec w c).1 h, Err e)].
Proof.
move=> hp hw id bad hb.
have [[[d m] [a b]] hin [ed em]] := mapP hp.
have [ev ew] := exec_value archive load mkdata w hin ed em.
rewrite -[ident c]/id hw orTb in ev ew.
have hs : dhas settings id by rewrite ident_pair.
pose l3 := take 3 (items4 id).
have f3 : has (fatal archive (c_srv c)) l3 by rewrite /= !orbF orbA; move: hb; rewrite /bad /fatal /= orbA.
have fe : fetch archive (c_srv c) w id (items id) = fetch archive (c_srv c) w id l3.
  rewrite items_split // -{1}(cat_take_drop 3 (items4 id)) -catA; exact: fetch_stop.
have h0 : dget w id = None by move: hw; rewrite dget_has; case: (dget w id).
have s0 k : sub w id k = None by rewrite /sub h0.
set w1 := (exec w c).1 in ev ew *.
have hw1 : dhas w1 id = (if c_srv c (base id +++ id +++ "_full.zip?download=true") is NoAnswer _ then false else true).
  by rewrite ew fe /l3 /items4 [take _ _]/= fetch_has (negbTE hw).
split=> //.
  by rewrite ev fe; have := fetch_res archive (c_srv c) w id l3; rewrite f3 => -[e ->]; exists e.
move=> hd hh hc hr hm.
have fr : dget (run w1 h) id = dget w1 id.
  by apply: run_frame => //; apply: sub_all hh => x; rewrite /ident eq_sym.
have hp' : (c_dataset c', c_model c') \in [seq p.1 | p <- published] by rewrite -ident_pair hc.
have [[[d' m'] [a' b']] hin' [ed' em']] := mapP hp'.
have [ev' ew'] := exec_value archive load mkdata (run w1 h) hin' ed' em'.
have hd' : dhas (run w1 h) (ident c') by rewrite /ident hc dget_has fr -dget_has.
rewrite hd' (negbTE hr) /= in ev' ew'.
rewrite [exec _ _]surjective_pairing ev' ew' /=.
have fn : file_at (run w1 h) (ident c') (c_metric c') ("target_values_" +++ c_metric c' +++ ".pt") = None.
  have -> : file_at (run w1 h) (ident c') (c_metric c') ("target_values_" +++ c_metric c' +++ ".pt") =
            file_at w1 id (c_metric c') ("target_values_" +++ c_metric c' +++ ".pt") by rewrite /file_at /ident hc fr.
  rewrite ew fe; move: hm; rewrite !inE => /orP [] /eqP ->; rewrite fetch_file // file_atE s0 //.
rewrite readE fn.
case: (count_folders _ _ _) => [nf|e]; last by exists e.
case: (count_folders _ _ _) => [nh|e]; last by exists e.
by case: (mkdata d') => [ds|e]; [exists FileNotFoundError|exists e].
Qed.

(* when only the leave-one-out files fail, calls for the other metric work from then on as after a full download *)
Theorem C53_loo_failure w c (h : seq (call C)) c' d m a b p v i ds :
  (d, m, (a, b)) \in published -> c_dataset c = d -> c_model c = m -> ~~ dhas w (d +++ "_" +++ m) ->
  (exists srv, serves archive srv (d +++ "_" +++ m) p /\
     forall u, u \in [:: base (d +++ "_" +++ m) +++ (d +++ "_" +++ m) +++ "_full.zip?download=true";
                        base (d +++ "_" +++ m) +++ (d +++ "_" +++ m) +++ "_half.zip?download=true";
                        base (d +++ "_" +++ m) +++ "lds/indices_lds.pt?download=true";
                        base (d +++ "_" +++ m) +++ "lds/target_values_lds.pt?download=true"] -> c_srv c u = srv u) ->
  wf_pub p -> load (p_tlds p) = Ok v -> load (p_ilds p) = Ok i -> mkdata d = Ok ds ->
  let w1 := (exec w c).1 in let id := d +++ "_" +++ m in
  all (fun x => (setting_id x != id) || ~~ c_re x) h ->
  c_dataset c' = d -> c_model c' = m -> ~~ c_re c' -> c_metric c' = "lds" ->
  exec (run w1 h) c' = (run w1 h, Ok (Result (if d == "shakespeare" then Argument m else Made id)
                      [seq [:: id; "models_full"; str_nat j; "model_weights_0.pt"] | j <- iota 0 (size (s_dirs (p_full p)))]
                      [seq [:: id; "models_half"; str_nat j; "model_weights_0.pt"] | j <- iota 0 (size (s_dirs (p_half p)))]
                      ds a b (d != "shakespeare") v i)).
Proof.
move=> hp hd hm hw [srv [[s1 s2 [s3 s4] _] es]] /andP [wf1 wf2] lv li ed w1 id hh hd' hm' hr ht.
have [e1 e2 e3] := setting_of hp.
have hs : dhas settings id by rewrite dget_has /id e1.
have hid : ident c = id by rewrite /ident hd hm.
have hid' : ident c' = id by rewrite /ident hd' hm'.
have s0 k : sub w id k = None by rewrite /sub; move: hw; rewrite dget_has -/id; case: (dget w id).
rewrite -!es ?inE ?eqxx ?orbT // in s1 s2 s3 s4.
have [f4 h4 m1 m2 m3] := fetch4 w s1 s2 s3 s4; rewrite -/id in f4 h4 m1 m2 m3.
have [_ ew] := exec_value archive load mkdata w hp hd hm.
rewrite hid hw orTb items_split // fetch_cat f4 -/w1 in ew; cbn [fst snd] in ew.
set w4 := (fetch _ _ _ _ (items4 _)).1 in f4 h4 m1 m2 m3 ew.
have q k : k != "loo" -> sub w1 id k = sub w4 id k.
  by move=> nk; rewrite ew; case: ifP => // _; rewrite fetch_sub // !inE (negbTE nk) orbT.
have hw1 : dhas w1 id by rewrite ew; case: ifP => // _; exact: fetch_mono.
have fr : dget (run w1 h) id = dget w1 id.
  by apply: run_frame => //; apply: sub_all hh => x; rewrite /ident eq_sym.
have hr1 : dhas (run w1 h) (ident c') by rewrite hid' dget_has fr -dget_has.
have [ev' ew'] := exec_value archive load mkdata (run w1 h) hp hd' hm'.
rewrite hr1 (negbTE hr) ht hid' in ev' ew'; move: ev' ew'; cbn [orb negb rbind] => ev' ew'.
rewrite [exec _ _]surjective_pairing ev' ew'.
have g k : sub (run w1 h) id k = sub w1 id k by rewrite /sub fr.
have ft (l : seq string) : [seq k <- l | k \notin [::]] = l by apply/all_filterP/allP.
have fu : folders (run w1 h) id "models_full" = Some (dkeys (s_dirs (p_full p))).
  rewrite foldersE g q // m1 s0; transitivity (Some (dkeys (s_dirs (extract (p_full p) (empty C))))); first by [].
  by rewrite keys_extract //= ft.
have ha : folders (run w1 h) id "models_half" = Some (dkeys (s_dirs (p_half p))).
  rewrite foldersE g q // m2 s0; transitivity (Some (dkeys (s_dirs (extract (p_half p) (empty C))))); first by [].
  by rewrite keys_extract //= ft.
have ft1 : file_at (run w1 h) id "lds" "target_values_lds.pt" = Some (p_tlds p) by rewrite file_atE g q // m3 /= dgetE eqxx.
have fi1 : file_at (run w1 h) id "lds" "indices_lds.pt" = Some (p_ilds p) by rewrite file_atE g q // m3 /= dgetE /= dgetE eqxx.
rewrite !countE fu ha ed; cbn [rbind].
by rewrite !readE ft1 fi1 lv; cbn [rbind]; rewrite li /paths !size_map.
Qed.

(* the leave-one-out ground truth of wikitext2_gpt2 can never be loaded, and other metrics than the two never *)
Theorem C53_no_metric w (h : seq (call C)) c :
  sub w "wikitext2_gpt2" "loo" = None ->
  setting_id c = "wikitext2_gpt2" -> c_metric c = "loo" -> exists e, (exec (run w h) c).2 = Err e.
Proof.
move=> h0 hc hm.
have inv x : sub x "wikitext2_gpt2" "loo" = None -> forall k, sub (exec x k).1 "wikitext2_gpt2" "loo" = None.
  move=> hx k; rewrite /exec /load_benchmark -/(ident k); case es: (dget settings _) => [g|] //.
  have hs : dhas settings (ident k) by rewrite dget_has es.
  set f := fetch _ _ _ _ _; have : sub f.1 "wikitext2_gpt2" "loo" = None.
    rewrite /f fetch_sub //; case: ("wikitext2_gpt2" =P ident k) => [e|_]; last by [].
    by rewrite orFb items_split // -e.
  by case: ifP => _; [case: f|].
have i1 : sub (run w h) "wikitext2_gpt2" "loo" = None by elim: h w h0 => [|k h IH] w h0 //=; apply: IH; exact: inv.
have i2 := inv _ i1 c.
have hp : (c_dataset c, c_model c) \in [seq p.1 | p <- published] by rewrite -ident_pair hc.
have [[[d m] [a b]] hin [ed em]] := mapP hp.
have [-> _] := exec_value archive load mkdata (run w h) hin ed em.
have fn : file_at (exec (run w h) c).1 (ident c) (c_metric c) ("target_values_" +++ c_metric c +++ ".pt") = None.
  by rewrite file_atE /ident hc hm i2.
rewrite readE fn; case: (if _ then _ else _) => [[]|e] /=; last by exists e.
case: (count_folders _ _ _) => [nf|e]; last by exists e.
case: (count_folders _ _ _) => [nh|e]; last by exists e.
by case: (mkdata d) => [x|e]; [exists FileNotFoundError|exists e].
Qed.

(* the listed checkpoints all exist exactly when the folders are, up to order, 0 .. n-1, each with its weights *)
Theorem C53_paths w c r key :
  (exec w c).2 = Ok r -> key \in [:: "models_full"; "models_half"] ->
  let w' := (exec w c).1 in let id := setting_id c in
  let ps := if key == "models_full" then r_full r else r_half r in
  exists2 l, folders w' id key = Some l &
  (uniq l -> all (exists_path w') ps <->
     perm_eq l [seq str_nat j | j <- iota 0 (size l)] /\
     all (fun k => exists_path w' [:: id; key; k; "model_weights_0.pt"]) l).
Proof.
move=> er hk w' id ps.
have hp : (c_dataset c, c_model c) \in [seq p.1 | p <- published].
  rewrite -ident_pair dget_has; move: er; rewrite /exec /load_benchmark; by case: (dget settings _).
have [[[d m] [a b]] hin [ed em]] := mapP hp.
have [ev _] := exec_value archive load mkdata w hin ed em; rewrite -/w' in ev.
move: er; rewrite {}ev -[ident c]/id; case: (if _ then _ else _) => [[]|e] //=.
rewrite !countE; case ef: (folders w' id "models_full") => [lf|] //=; case eh: (folders w' id "models_half") => [lh|] //=.
case: (mkdata d) => [x|//] /=; case: (read _ _ _ _ _) => [tv|//] /=; case: (read _ _ _ _ _) => [ix|//] /= [er].
have [l el eps] : exists2 l, folders w' id key = Some l & ps = [seq [:: id; key; str_nat j; "model_weights_0.pt"] | j <- iota 0 (size l)].
  by move: hk; rewrite /ps !inE => /orP [] /eqP ->; rewrite -er; [exists lf|exists lh].
exists l => // u; rewrite eps all_map.
have mem k : exists_path w' [:: id; key; k; "model_weights_0.pt"] -> k \in l.
  move: el; rewrite foldersE /exists_path /= -/(sub w' id key); case: (sub w' id key) => //= dd [<-].
  by case e: (dget (s_dirs dd) k) => [fl|//] _; exact: dget_mem e.
set dec := [seq str_nat j | j <- iota 0 (size l)].
have ud : uniq dec by rewrite map_inj_uniq ?iota_uniq //; exact: str_nat_inj.
split=> [al|[pe al]].
  have sb : {subset dec <= l} by move=> k /mapP [j jl ->]; apply: mem; exact: (allP al).
  have [sz em2] : size l = size dec /\ dec =i l.
    have sd : size dec = size l by rewrite size_map size_iota.
    by have [_ ?] := uniq_min_size ud sb (eq_leq (esym sd)).
  have pe : perm_eq l dec by apply: uniq_perm => // k; rewrite em2.
  by split=> //; apply/allP => k; rewrite -em2 => /mapP [j jl ->]; exact: (allP al).
apply/allP => j jl /=; apply: (allP al); rewrite (perm_mem pe); exact: map_f.
Qed.
End Props.

(* a concrete server with two full models (three on the old release) and one half model *)
Section Examples.
Definition ex_m (s : string) : dict string_eqType string := [:: ("model_weights_0.pt", s)].
Definition ex_archive (c : string) : res (subdir string) :=
  if c == "old" then Ok (Sub [:: ("0", ex_m "a"); ("1", ex_m "b"); ("2", ex_m "c")] [::])
  else if c == "full" then Ok (Sub [:: ("1", ex_m "B"); ("0", ex_m "A")] [::])
  else if c == "half" then Ok (Sub [:: ("0", ex_m "H")] [::]) else Err ValueError.
Definition ex_load (c : string) : res string := Ok c.
Definition ex_data (d : string) : res string := Ok d.
Definition ex_srv (f : answer string) (u : string) : answer string :=
  if u == base "mnist_lr" +++ "mnist_lr_full.zip?download=true" then f
  else if u == base "mnist_lr" +++ "mnist_lr_half.zip?download=true" then Full "half"
  else if u == base "mnist_lr" +++ "lds/indices_lds.pt?download=true" then Full "il"
  else if u == base "mnist_lr" +++ "lds/target_values_lds.pt?download=true" then Full "tl"
  else if u == base "mnist_lr" +++ "loo/indices_loo.pt?download=true" then Full "io"
  else if u == base "mnist_lr" +++ "loo/target_values_loo.pt?download=true" then Full "to"
  else Status _ 404.
Definition ex_pub : published_files string :=
  Pub (Sub [:: ("1", ex_m "B"); ("0", ex_m "A")] [::]) (Sub [:: ("0", ex_m "H")] [::]) "il" "tl" "io" "to".
Definition ex_call f re : call string := Call (ex_srv f) "lr" "mnist" "loo" re.
Notation ex_exec := (exec ex_archive ex_load ex_data).
Definition ex_path k j : seq string := [:: "mnist_lr"; k; j; "model_weights_0.pt"].

Example C53_ex_hypotheses :
  serves ex_archive (c_srv (ex_call (Full "full") false)) "mnist_lr" ex_pub /\ wf_pub ex_pub.
Proof. by split=> //; split=> //; [exists "full"|exists "half"]. Qed.
Example C53_ex_first :
  (ex_exec [::] (ex_call (Full "full") false)).2 =
  Ok (Result (Made "mnist_lr") [:: ex_path "models_full" "0"; ex_path "models_full" "1"] [:: ex_path "models_half" "0"]
             "mnist" 5000 500 true "to" "io").
Proof. by vm_compute. Qed.
(* a new release with fewer models, fetched with redownload=True over the old one: the count, and the checkpoint "2", are the old ones *)
Theorem C53_redownload_stale_refuted :
  ~ (forall w c p, serves ex_archive (c_srv c) "mnist_lr" p -> wf_pub p ->
       c_dataset c = "mnist" -> c_model c = "lr" -> c_re c ->
       forall r, (ex_exec w c).2 = Ok r -> size (r_full r) = size (s_dirs (p_full p))).
Proof.
pose w := (ex_exec [::] (ex_call (Full "old") false)).1.
move=> /(_ w (ex_call (Full "full") true) ex_pub) h.
have [hs hp] := C53_ex_hypotheses.
by have := h hs hp erefl erefl erefl _ erefl; vm_compute.
Qed.
(* an archive the server does not have (404) is not an error: the list of models is empty *)
Theorem C53_missing_archive_refuted :
  ~ (forall c, c_srv c (base "mnist_lr" +++ "mnist_lr_full.zip?download=true") = Status _ 404 ->
       c_dataset c = "mnist" -> c_model c = "lr" -> exists e, (ex_exec [::] c).2 = Err e).
Proof. by move=> /(_ (ex_call (Status _ 404) false) erefl erefl erefl) [e]; vm_compute. Qed.
(* an archive cut short, then a healthy server *)
Example C53_ex_stuck :
  let w := (ex_exec [::] (ex_call (Cut (Sub [:: ("1", ex_m "B")] [::]) "x" RuntimeError) false)).1 in
  (ex_exec w (ex_call (Full "full") false)).2 = Err FileNotFoundError /\
  (ex_exec w (ex_call (Full "full") true)).2 = (ex_exec [::] (ex_call (Full "full") false)).2.
Proof. by vm_compute. Qed.
(* the folders "1", "0" of the release are, up to order, 0 .. 1; an archive with the folders "1", "2" has a missing path *)
Example C53_ex_paths :
  let w := (ex_exec [::] (ex_call (Full "full") false)).1 in
  all (exists_path w) [:: ex_path "models_full" "0"; ex_path "models_full" "1"] /\
  ~~ exists_path w (ex_path "models_full" "2").
Proof. by vm_compute. Qed.
Example C53_ex_wikitext2 : (* the loo ground truth is not even requested *)
  (ex_exec [::] (Call (fun u => if u == base "wikitext2_gpt2" +++ "wikitext2_gpt2_full.zip?download=true" then Full "full"
     else if u == base "wikitext2_gpt2" +++ "wikitext2_gpt2_half.zip?download=true" then Full "half" else Full "t")
     "gpt2" "wikitext2" "loo" false)).2 = Err FileNotFoundError.
Proof. by vm_compute. Qed.
End Examples.

Print Assumptions C53_unsupported.
Print Assumptions C53_download.
Print Assumptions C53_cached.
Print Assumptions C53_other_settings.
Print Assumptions C53_stuck.
Print Assumptions C53_loo_failure.
Print Assumptions C53_no_metric.
Print Assumptions C53_paths.
Print Assumptions C53_redownload_stale_refuted.
Print Assumptions C53_missing_archive_refuted.
