Set Warnings "-notation-overridden,-ambiguous-paths".
From mathcomp Require Import all_ssreflect zify.
From Verif Require Import Py Dict Tensor OffModel OffSpec OffProof DiskModel DiskSpec DiskProof DiskProof2 DiskProof3.
Set Implicit Arguments. Unset Strict Implicit. Unset Printing Implicit Defensive.

Lemma has_In (A : Type) (p : pred A) l : has p l -> exists2 a, List.In a l & p a.
Proof. by elim: l => [|a l IH] //= /orP [h|/IH [x xl px]]; [exists a => //; left|exists x => //; right]. Qed.
Lemma In_has (A : Type) (p : pred A) l a : List.In a l -> p a -> has p l.
Proof. by elim: l => [|x l IH] //= [->|/IH h] pa; rewrite ?pa // h // orbT. Qed.

(* ------------------------------------------------------------------------- reading *)
Section Read.
Variables (T : eqType) (z : T) (cs mx : nat).
Variable listing : seq fkey -> seq fkey.
Hypothesis lperm : forall l, perm_eq (listing l) l.
Variable ds : seq nat.
Notation W := (sumn ds).
Notation row := (seq T). Notation gr := (gr T). Notation dstate := (dstate T). Notation task := (task T).
Notation entry := (entry T).
Notation Inv := (Inv cs ds).
Implicit Types (S : seq entry) (s : dstate) (d : disk T).

Lemma find_infoP k b (rows : seq row) info se : find_info b info = Some se ->
  ((k, b), slice se rows) \in entp k rows info.
Proof.
rewrite /find_info; case e: [seq x <- info | x.1 == b] => [|x l] // [<-].
have : x \in [seq x <- info | x.1 == b] by rewrite e inE eqxx.
rewrite mem_filter => /andP [/eqP xb xi]; apply/mapP; exists x => //; by rewrite xb.
Qed.
Lemma find_info_none b info : (find_info b info == None) = (b \notin [seq x.1 | x <- info]).
Proof.
rewrite /find_info; case e: [seq x <- info | x.1 == b] => [|x l].
  apply/esym/negP => /mapP [x xi xb].
  have : x \in [seq x <- info | x.1 == b] by rewrite mem_filter xb eqxx.
  by rewrite e.
have : x \in [seq x <- info | x.1 == b] by rewrite e inE eqxx.
rewrite mem_filter => /andP [/eqP xb xi]; apply/esym/negbTE; rewrite negbK; apply/mapP; by exists x.
Qed.

Lemma mem_chunk_files k d fk : (fk \in chunk_files listing k d) =
  [&& fk \in dkeys d, fk.1 == k & if dget d fk is Some f then if f_meta f is Some _ then true else false else false].
Proof. by rewrite mem_sort (perm_mem (lperm _)) mem_filter andbC. Qed.

Lemma load_full d fk f m : uniq (dkeys d) -> all (okfile ds) d -> dget d fk = Some f -> f_meta f = Some (MFull m) ->
  load_chunk d fk = Ok (f_data f, m).
Proof.
move=> u al g mf; have := all_dget al g; rewrite /okfile /= mf => /and5P [/andP [ok _] _ _ /eqP sh _].
rewrite /load_chunk /read_meta g; case: f g mf ok sh => fd fm /= g -> ok sh; rewrite /= sh /=.
have e : shape fd = nseq (size fd) W.
  by elim: fd ok {g sh} => [|r l IH] //= /andP [/eqP -> /IH ->].
by rewrite size_flatten e sumn_nseq mulnC eqxx -e flattenK.
Qed.

Definition nopart (k : bool) d := all (fun kv => (kv.1.1 == k) ==> if f_meta kv.2 is Some MPart then false else true) d.

Lemma part_not k d fk f : dget d fk = Some f -> f_meta f = Some MPart -> fk.1 = k -> ~~ nopart k d.
Proof.
move=> g mf k1; apply/negP => h; have := all_dget h g; by rewrite /= k1 eqxx mf.
Qed.
Lemma read_part d fk f : dget d fk = Some f -> f_meta f = Some MPart -> read_meta d fk = Err ValueError.
Proof. by move=> g; rewrite /read_meta g; case: f g => fd fm g /= ->. Qed.
Lemma read_full d fk f m : dget d fk = Some f -> f_meta f = Some (MFull m) -> read_meta d fk = Ok m.
Proof. by move=> g; rewrite /read_meta g; case: f g => fd fm g /= ->. Qed.

Lemma scanP k d b : uniq (dkeys d) -> all (okfile ds) d ->
  match scan d b (chunk_files listing k d) with
  | Err e => e = ValueError /\ ~~ nopart k d
  | Ok None => ~~ has (lists k b) d /\ nopart k d
  | Ok (Some (chunk, info, rows)) => exists fk f m se,
      [/\ dget d fk = Some f, f_meta f = Some (MFull m), fk.1 = k, chunk = f_data f & info = mt_info m]
      /\ find_info b info = Some se /\ rows = slice se chunk
  end.
Proof.
move=> u al.
suff H (fks : seq fkey) : all (fun fk => fk \in chunk_files listing k d) fks ->
  match scan d b fks with
  | Err e => e = ValueError /\ ~~ nopart k d
  | Ok None => forall fk, fk \in fks -> exists f m, [/\ dget d fk = Some f, f_meta f = Some (MFull m) & find_info b (mt_info m) = None]
  | Ok (Some (chunk, info, rows)) => exists fk f m se,
      [/\ dget d fk = Some f, f_meta f = Some (MFull m), fk.1 = k, chunk = f_data f & info = mt_info m]
      /\ find_info b info = Some se /\ rows = slice se chunk
  end.
  have := H (chunk_files listing k d); case: (scan _ _ _) => [[x|]|e]; try by apply; apply/allP.
  move/(_ (introT allP (fun _ => id))) => h.
  have h2 kv : List.In kv d -> kv.1.1 = k -> f_meta kv.2 <> None ->
      exists2 m, f_meta kv.2 = Some (MFull m) & find_info b (mt_info m) = None.
    move=> ind k1 nf; have g := dget_in u ind.
    have [|f [m [g' mf e]]] := h kv.1; last by move: g'; rewrite g => -[fe]; exists m; rewrite ?fe.
    by rewrite mem_chunk_files (dget_mem g) k1 eqxx g; case: (f_meta kv.2) nf.
  split.
    apply/negP => /has_In [kv ind /andP [/eqP k1 l1]].
    have [|m mf] := h2 kv ind k1; first by move=> e; move: l1; rewrite e.
    by move/eqP; rewrite find_info_none; rewrite mf in l1; rewrite l1.
  apply/negPn/negP; rewrite /nopart -has_predC => /has_In [kv ind /=]; rewrite negb_imply => /andP [/eqP k1 l1].
  have [|m mf] := h2 kv ind k1; first by move=> e; move: l1; rewrite e.
  by move: l1; rewrite mf.
elim: fks => [|fk fks IH] //= /andP [hin /IH]; move=> {}IH.
move: hin; rewrite mem_chunk_files => /and3P [_ /eqP k1]; case g: (dget d fk) => [f|] //.
case mf: (f_meta f) => [[|m]|] // _.
  by rewrite (read_part g mf) /=; split=> //; apply: (part_not g).
rewrite (load_full u al g mf) /=.
rewrite (read_full g mf) /=; case fi: (find_info b (mt_info m)) => [se|] /=.
  by exists fk, f, m, se.
case: (scan d b fks) IH => [[x|]|] // h fk'; rewrite inE => /orP [/eqP ->|/h //].
by exists f, m.
Qed.

(* a batch read from a state comes from its entry *)
Lemma mem_eb s (key : ckey) bf se b : dget (d_bufs s) key = Some bf -> find_info b (b_info bf) = Some se ->
  ((key.1, b), slice se (b_rows bf)) \in ents s.
Proof.
move=> g /(find_infoP key.1 (b_rows bf)) h; rewrite /ents mem_cat; apply/orP; left.
have := @has_flat_dget _ _ _ (@eb T) (pred1 ((key.1, b), slice se (b_rows bf))) _ _ _ g.
by rewrite !has_pred1; apply.
Qed.
Lemma mem_ef s (fk : fkey) f m se b : dget (d_disk s) fk = Some f -> f_meta f = Some (MFull m) ->
  find_info b (mt_info m) = Some se -> ((fk.1, b), slice se (f_data f)) \in ents s.
Proof.
move=> g mf /(find_infoP fk.1 (f_data f)) h; rewrite /ents !mem_cat; do ?[apply/orP; right].
have := @has_flat_dget _ _ _ (@ef T) (pred1 ((fk.1, b), slice se (f_data f))) _ _ _ g.
by rewrite !has_pred1; apply; rewrite /ef /= mf.
Qed.

Lemma load_dimsE d : uniq (dkeys d) -> all (okfile ds) d ->
  load_dims listing d = Some ds \/
  (load_dims listing d = None /\ forall k, chunk_files listing k d = [::] \/ ~~ nopart k d).
Proof.
move=> u al; rewrite /load_dims.
have H k : (exists2 fk, ohead (chunk_files listing k d) = Some fk & exists2 m, read_meta d fk = Ok m & mt_dims m = ds)
   \/ ((if chunk_files listing k d is fk :: _ then if read_meta d fk is Ok m then Some (mt_dims m) else None else None) = None
       /\ (chunk_files listing k d = [::] \/ ~~ nopart k d)).
  case e: (chunk_files listing k d) => [|fk l]; first by right; split=> //; left.
  have : fk \in chunk_files listing k d by rewrite e inE eqxx.
  rewrite mem_chunk_files => /and3P [_ /eqP k1]; case g: (dget d fk) => [f|] //.
  have := all_dget al g; rewrite /okfile /=.
  case mf: (f_meta f) => [[|m]|] // okf _.
    by right; rewrite (read_part g mf); split=> //; right; apply: (part_not g).
  left; exists fk => //; exists m; first exact: (read_full g).
  by case/and5P: okf => _ _ _ _ /eqP.
have [[fk e [m rm md]]|[-> h1]] := H false.
  by left; case: (chunk_files listing false d) e => // fk' l [->]; rewrite rm md.
have [[fk e [m rm md]]|[-> h2]] := H true.
  by left; case: (chunk_files listing true d) e => // fk' l [->]; rewrite rm md.
by right; split=> // -[].
Qed.

Lemma ensureE S s : Inv S s -> ensure_dims_disk listing s = Ok ds \/
  (ensure_dims_disk listing s = Err ValueError /\ d_dims s = None).
Proof.
move=> I; rewrite /ensure_dims_disk; case: (i_dims I) => [->|[-> -> _ _ _]]; first by left.
have l0 : listing [::] = [::] by apply/perm_small_eq.
by right; rewrite /load_dims /chunk_files /= l0.
Qed.

(* reading keeps the invariant; a successful read returns the rows of the entry, or nothing *)
Lemma inv_read S s k b : Inv S s -> Inv S (retrieve_batch cs listing k b s).1 /\
  (match (retrieve_batch cs listing k b s).2 with
   | Ok gs => (exists2 rows, ((k, b), rows) \in S & gs = split_rows ds rows) \/
              [/\ gs = nseq (size ds) G1, ~~ has (lists k b) (d_disk s) & nopart k (d_disk s)]
   | Err e => e = ValueError /\ (d_dims s = None \/ ~~ nopart k (d_disk s)) end)
  /\ (d_bufs (retrieve_batch cs listing k b s).1 = d_bufs s /\ d_queue (retrieve_batch cs listing k b s).1 = d_queue s /\
   d_busy (retrieve_batch cs listing k b s).1 = d_busy s /\ d_pend (retrieve_batch cs listing k b s).1 = d_pend s /\
   d_range (retrieve_batch cs listing k b s).1 = d_range s /\ d_wait (retrieve_batch cs listing k b s).1 = d_wait s /\
   d_disk (retrieve_batch cs listing k b s).1 = d_disk s).
Proof.
move=> I; rewrite /retrieve_batch; case: (ensureE I) => [->|[-> dn]]; last by split=> //; split=> //; split=> //; left.
set key : ckey := (k, b %/ cs).
have I1 := inv_set_dims I; set s1 := upd_dims (Some ds) s in I1 *.
have inS e : e \in ents s1 -> e \in S by rewrite (perm_mem (i_ents I1)).
case e1: (if dget (d_bufs s1) key is Some bf then _ else None) => [rows|].
  split=> //; split=> //; left; exists rows => //; apply: inS.
  case g: (dget (d_bufs s1) key) e1 => [bf|] //; case fi: (find_info b (b_info bf)) => [se|] // [<-].
  exact: (mem_eb g fi).
set s2 := if dget (d_cache s1) key is Some v then _ else s1.
have I2 : Inv S s2.
  rewrite /s2; case g: (dget (d_cache s1) key) => [v|] //; apply: inv_cache => // kv.
  rewrite -cats1 => /List.in_app_iff [/In_ddel /(i_cache I1) //|[<-|//]].
  exact: (i_cache I1 (dget_In g)).
have eq2 : (d_disk s2 = d_disk s) /\ (d_bufs s2 = d_bufs s /\ d_queue s2 = d_queue s /\ d_busy s2 = d_busy s /\
   d_pend s2 = d_pend s /\ d_range s2 = d_range s /\ d_wait s2 = d_wait s /\ d_disk s2 = d_disk s).
  by rewrite /s2; case: dget.
case e2: (if dget (d_cache s1) key is Some v then _ else None) => [rows|].
  split=> //; split; last by case: eq2.
  left; exists rows => //; apply: inS.
  case g: (dget (d_cache s1) key) e2 => [[rws info]|] //; case fi: (find_info b info) => [se|] // [<-].
  have [fk [f [m [g1 g2 [e3 e4] e5]]]] := i_cache I1 (dget_In g).
  by rewrite e3; rewrite e4 in fi; have := mem_ef g1 g2 fi; rewrite e5.
have := scanP k b (i_ud I2) (i_files I2); case: (scan _ _ _) => [[[[chunk info] rows]|]|e] /=.
- move=> [fk [f [m [se [[g1 g2 e3 -> ->] [fi ->]]]]]]; split.
    apply: inv_cache => // kv; rewrite /cache_put => h.
    have : List.In kv (rcons (ddel (d_cache s2) key) (key, (f_data f, mt_info m))).
      by move: h; case: ifP => // _; case: (rcons _ _) => //= a l; right.
    rewrite -cats1 => /List.in_app_iff [/In_ddel /(i_cache I2) //|[<-|//]].
    by exists fk, f, m.
  split; last by case: eq2.
  left; exists (slice se (f_data f)) => //; rewrite -(perm_mem (i_ents I2)) -e3; exact: (mem_ef g1 g2 fi).
- by case=> h1 h2; split=> //; split; [right; case: eq2 => <- | case: eq2].
- by case=> -> h; split=> //; split; [split=> //; right; case: eq2 => <- | case: eq2].
Qed.
(* a batch in a complete file is found when all metadata files are complete *)
End Read.
