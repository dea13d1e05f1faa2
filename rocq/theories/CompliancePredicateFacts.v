(** Proofs about compliance predicates and handlers. *)
From mathcomp Require Import all_ssreflect all_algebra zify.
From Verif Require Import Outcome Lincomb LincombSpec R1CS R1CSSpec R1CSFacts Protoboard GadgetSpec GadgetLogic GadgetNew.
From Verif Require Import Serialization SerializationSpec SerializationFacts CompliancePredicate CompliancePredicateSpec.
Set Implicit Arguments.
Unset Strict Implicit.
Unset Printing Implicit Defensive.
Local Open Scope ring_scope.

Section Facts.
Variable F : fieldType.
Local Notation message := (pcd_message F).

Lemma msg_assignmentE (m : message) : msg_assignment m = message_wires m. Proof. by []. Qed.
Lemma foldl_cat_nseq (r : seq F) (ls : seq nat) :
  foldl (fun r l => r ++ nseq (1 + l) 0) r ls = r ++ flatten [seq nseq l.+1 0 | l <- ls].
Proof. by elim: ls r => [|l ls IH] r /=; rewrite ?cats0 // IH -catA. Qed.
Lemma messages_fit_size lengths (ms : seq message) : messages_fit lengths ms -> (size ms <= size lengths)%N.
Proof. by move/eqP => /(congr1 size); rewrite size_map size_take; case: ltnP => [/ltnW|_ ->]. Qed.
Lemma messages_fit_cons l lengths m (ms : seq message) :
  messages_fit (l :: lengths) (m :: ms) = (size (msg_payload m) == l) && messages_fit lengths ms.
Proof. by rewrite /messages_fit /= eqseq_cons. Qed.

Lemma aux_loop lengths (ms : seq message) r : messages_fit lengths ms ->
  ofold (fun result (ml : message * nat) => assert! (size (msg_assignment ml.1) == 1 + ml.2)%N in Ok (result ++ msg_assignment ml.1)) r (zip ms lengths)
    = Ok (r ++ flatten [seq message_wires m | m <- ms]).
Proof.
elim: ms lengths r => [|m ms IH] [|l ls] r //=; rewrite ?cats0 //.
rewrite messages_fit_cons => /andP[/eqP <- h]; rewrite add1n eqxx /= (IH _ _ h) -catA //.
Qed.
Lemma auxE lengths (ms : seq message) loc wit : messages_fit lengths ms ->
  cp_auxiliary_input lengths ms loc wit = Ok ((size ms)%:R :: incoming_wires lengths ms ++ loc ++ wit).
Proof.
move=> h; rewrite /cp_auxiliary_input (messages_fit_size h) aux_loop //; cbn [obind oassert].
by rewrite foldl_cat_nseq /incoming_wires /= -!catA.
Qed.
Lemma check_loop (lengths : seq nat) (ms : seq message) k : messages_fit (drop k lengths) ms ->
  ofold (fun (u : unit) (im : nat * message) => let! l := oget lengths im.1 in
           assert! (size (msg_payload im.2) == l) in Ok u) tt (zip (iota k (size ms)) ms) = Ok tt.
Proof.
elim: ms k => [|m ms IH] k //= h.
have hk : (k < size lengths)%N by move: (messages_fit_size h); rewrite /= size_drop; clear; lia.
move: h; rewrite (drop_nth 0%N hk) messages_fit_cons => /andP[/eqP e h].
by rewrite (oget_nth 0%N hk) obindE e eqxx /= IH.
Qed.

Lemma check_loop_fail (lengths : seq nat) (ms : seq message) k : (k + size ms <= size lengths)%N -> ~~ messages_fit (drop k lengths) ms ->
  ofold (fun (u : unit) (im : nat * message) => let! l := oget lengths im.1 in
           assert! (size (msg_payload im.2) == l) in Ok u) tt (zip (iota k (size ms)) ms) = AssertFail.
Proof.
elim: ms k => [|m ms IH] k hs; first by rewrite /messages_fit take0.
have hk : (k < size lengths)%N by move: hs => /=; clear; lia.
rewrite (drop_nth 0%N hk) messages_fit_cons negb_and; cbn [size iota zip ofold fst snd].
rewrite (oget_nth 0%N hk) obindE; case: eqP => //= _ hf; apply: IH => //; move: hs => /=; clear; lia.
Qed.

Lemma sum_incoming lengths (ms : seq message) : messages_fit lengths ms ->
  size (incoming_wires lengths ms) = (sumn lengths + size lengths)%N.
Proof.
elim: ms lengths => [|m ms IH] lengths.
  move=> _; rewrite /incoming_wires /= drop0; elim: lengths => //= l ls IHl.
  by rewrite size_cat size_nseq IHl; clear; lia.
case: lengths => [|l ls]; first by rewrite /messages_fit.
rewrite messages_fit_cons => /andP[/eqP <- h].
rewrite /incoming_wires /= -catA size_cat.
have := IH _ h; rewrite /incoming_wires => ->; clear; lia.
Qed.
Lemma size_aux lengths (ms : seq message) (a : F) (loc wit : seq F) : messages_fit lengths ms ->
  size (a :: incoming_wires lengths ms ++ loc ++ wit) = (1 + (sumn lengths + size lengths) + size loc + size wit)%N.
Proof. by move=> h; cbn [size]; rewrite (size_cat (incoming_wires _ _)) (size_cat loc) sum_incoming //; clear; lia. Qed.
Lemma foldl_addn (ns : seq nat) k : foldl addn k ns = (k + sumn ns)%N.
Proof. by elim: ns k => [|n ns IH] k /=; rewrite ?addn0 // IH addnA. Qed.

Lemma cp_is_satisfiedE (cp : compliance_predicate F) (out : message) ms loc wit :
  cp_is_well_formed cp -> size (msg_payload out) = cp_outgoing_length cp -> messages_fit (cp_incoming_lengths cp) ms ->
  size loc = cp_local_length cp ->
  cp_is_satisfied cp out ms loc wit =
    r1cs_is_satisfied (cp_cs cp) (message_wires out) ((size ms)%:R :: incoming_wires (cp_incoming_lengths cp) ms ++ loc ++ wit).
Proof.
move=> /and4P[_ /eqP hl _ _] h1 h2 h3; rewrite /cp_is_satisfied h1 eqxx -hl (messages_fit_size h2).
cbn [oassert]; rewrite check_loop ?drop0 //; cbn [obind]; rewrite h3 eqxx; cbn [oassert].
by rewrite auxE.
Qed.

(** ** Handlers *)
Lemma num_vars_wf (pb : protoboard F) : pb_wf pb -> pb_num_variables pb = size (pb_values pb).
Proof. by case=> _ h _ _; rewrite /pb_num_variables h subn1. Qed.

(** The message variable that starts behind [k] variables, with [n] for the payload. *)
Definition mv_at (k n : nat) : message_variable := MessageVariable k.+1 k.+1 (iota k.+1 n.+1).
Fixpoint mvs_at (k : nat) (ns : seq nat) : seq message_variable :=
  if ns is n :: ns' then mv_at k n :: mvs_at (k + n.+1) ns' else [::].

Definition grown (pb pb' : protoboard F) (k : nat) : Prop :=
  [/\ pb_values pb' = pb_values pb ++ nseq k 0, constraints (pb_cs pb') = constraints (pb_cs pb),
      pb_num_inputs pb' = pb_num_inputs pb & pb_wf pb'].
Lemma grown_trans pb1 pb2 pb3 a b : grown pb1 pb2 a -> grown pb2 pb3 b -> grown pb1 pb3 (a + b).
Proof. by case=> h1 h2 h3 h4 [g1 g2 g3 g4]; split=> //; rewrite ?g1 ?h1 ?g2 ?g3 // -catA -nseqD. Qed.
Lemma grown_var pb v pb' : pb_wf pb -> allocate_var pb = (v, pb') -> grown pb pb' 1 /\ v = (size (pb_values pb)).+1.
Proof.
move=> hw ea; have [-> h1 _ h2 h3] := allocate_var_wf hw ea; split=> //; split=> //.
- by rewrite h1 -cats1.
- by case: ea => _ <-.
Qed.
Lemma grown_array pb n vs pb' : pb_wf pb -> allocate_array pb n = (vs, pb') ->
  grown pb pb' n /\ vs = iota (size (pb_values pb)).+1 n.
Proof.
move=> hw ea; have [-> h1 _ h2 h3] := allocate_array_wf hw ea; split=> //; split=> //.
exact: (allocate_array_inputs ea).
Qed.
Lemma mv_make_at n pb m pb' : pb_wf pb -> mv_make n pb = (m, pb') ->
  grown pb pb' n.+1 /\ m = mv_at (size (pb_values pb)) n.
Proof.
rewrite /mv_make /mv_new => hw.
case e1: (allocate_var pb) => [v pb1]; case e2: (allocate_array pb1 n) => [vs pb2] [<- <-].
have [g1 ->] := grown_var hw e1; have hw1 : pb_wf pb1 by case: g1.
have [g2 _] := grown_array hw1 e2; have hw2 : pb_wf pb2 by case: g2.
have s1 : size (pb_values pb1) = (size (pb_values pb)).+1 by case: g1 => -> _ _ _; rewrite size_cat size_nseq addn1.
have s2 : size (pb_values pb2) = ((size (pb_values pb)).+1 + n)%N by case: g2 => -> _ _ _; rewrite size_cat size_nseq s1.
split; first by rewrite -add1n; exact: grown_trans g1 g2.
rewrite /mv_update_all_vars; cbn [mv_num_vars mv_type mv_all_vars]; rewrite !num_vars_wf // s1 s2 addKn //.
Qed.
Lemma mvs_make_at ns pb ms pb' : pb_wf pb -> mvs_make ns pb = (ms, pb') ->
  grown pb pb' (sumn ns + size ns) /\ ms = mvs_at (size (pb_values pb)) ns.
Proof.
elim: ns pb ms pb' => [|n ns IH] pb ms pb' hw; cbn [mvs_make].
  by case=> <- <-; split=> //; split=> //; rewrite cats0.
case e1: (mv_make n pb) => [m pb1]; case e2: (mvs_make ns pb1) => [ms1 pb2] [<- <-].
have [g1 ->] := mv_make_at hw e1; have hw1 : pb_wf pb1 by case: g1.
have [g2 ->] := IH _ _ _ hw1 e2; split.
  by rewrite (_ : sumn (n :: ns) + size (n :: ns) = n.+1 + (sumn ns + size ns))%N; [exact: grown_trans g1 g2|rewrite /=; clear; lia].
by cbn [mvs_at]; case: g1 => -> _ _ _; rewrite size_cat size_nseq.
Qed.
Lemma ld_make_at n pb vs pb' : pb_wf pb -> ld_make n pb = (vs, pb') ->
  grown pb pb' n /\ vs = iota (size (pb_values pb)).+1 n.
Proof.
rewrite /ld_make => hw; case e1: (allocate_array pb n) => [u pb1] [<- <-].
have [g1 _] := grown_array hw e1; split=> //; have hw1 : pb_wf pb1 by case: g1.
by rewrite !num_vars_wf //; case: g1 => -> _ _ _; rewrite size_cat size_nseq addKn.
Qed.

Lemma handler_newE name type same accepted out ins loc wit :
  let h := handler_new F name type same accepted out ins loc wit in
  let k := (out.+2 + (sumn ins + size ins))%N in
  h = CpHandler (h_pb h) (mv_at 0 out) out.+2 (mvs_at out.+2 ins) (iota k.+1 loc) name type (size ins) same accepted /\
  grown (pb_new F) (h_pb h) (k + loc + wit).
Proof.
rewrite /handler_new.
have hw : pb_wf (pb_new F) by [].
case e1: (mv_make out _) => [m pb1]; case e2: (allocate_var pb1) => [ar pb2].
case e3: (mvs_make ins pb2) => [ms pb3]; case e4: (ld_make loc pb3) => [l pb4].
case e5: (allocate_array pb4 wit) => [u pb5]; cbn [h_pb].
have [g1 ->] := mv_make_at hw e1; have hw1 : pb_wf pb1 by case: g1.
have [g2 ->] := grown_var hw1 e2; have hw2 : pb_wf pb2 by case: g2.
have [g3 ->] := mvs_make_at hw2 e3; have hw3 : pb_wf pb3 by case: g3.
have [g4 ->] := ld_make_at hw3 e4; have hw4 : pb_wf pb4 by case: g4.
have [g5 _] := grown_array hw4 e5.
have g12 := grown_trans g1 g2; have g13 := grown_trans g12 g3; have g14 := grown_trans g13 g4; have g15 := grown_trans g14 g5.
have sz pb k : grown (pb_new F) pb k -> size (pb_values pb) = k by case=> -> _ _ _; rewrite /= size_nseq.
rewrite (sz _ _ g1) (sz _ _ g12) (sz _ _ g13); split; first by rewrite addn1.
by move: g15; rewrite addn1.
Qed.

(** ** Filling variables *)
Lemma with_with (pb : protoboard F) u v : with_values (with_values pb u) v = with_values pb v.
Proof. by case: pb. Qed.
Lemma with_self (pb : protoboard F) : with_values pb (pb_values pb) = pb. Proof. by case: pb. Qed.
Lemma set_at (pb : protoboard F) a y c x : pb_values pb = a ++ y :: c ->
  pb_set pb (size a).+1 x = Ok (with_values pb (a ++ x :: c)).
Proof.
move=> e; rewrite /pb_set e size_cat.
have hl : (size a < size a + size (y :: c))%N by rewrite /=; clear; lia.
rewrite hl; cbn [oassert]; rewrite (oput_set_nth 0) ?size_cat //; cbn [omap obind]; congr (Ok (with_values pb _)).
by elim: (a) => //= z a' ->.
Qed.
Lemma fill_loop (pb : protoboard F) a b c vals : pb_values pb = a ++ b ++ c -> size b = size vals ->
  ofold (fun pb vx => pb_set pb vx.1 vx.2) pb (zip (iota (size a).+1 (size vals)) vals) = Ok (with_values pb (a ++ vals ++ c)).
Proof.
elim: vals pb a b => [|x vals IH] pb a [|y b] //= e hs; first by rewrite -e with_self.
rewrite (set_at x e) obindE.
have := IH (with_values pb (a ++ x :: b ++ c)) (rcons a x) b.
rewrite size_rcons => ->; first by rewrite with_with cat_rcons.
- by rewrite cat_rcons; case: (pb).
- by case: hs.
Qed.
Lemma fill_at (pb : protoboard F) a b c vals : pb_values pb = a ++ b ++ c -> size b = size vals ->
  fill_with_field_elements pb (iota (size a).+1 (size vals)) vals = Ok (with_values pb (a ++ vals ++ c)).
Proof. by move=> e hs; rewrite /fill_with_field_elements size_iota eqxx; cbn [oassert]; exact: (fill_loop e hs). Qed.

Lemma nth_mvs_at k ns d i : (i < size ns)%N ->
  nth d (mvs_at k ns) i = mv_at (k + sumn (take i ns) + i) (nth 0%N ns i).
Proof.
elim: ns k i => [|n ns IH] k [|i] //= hi; first by rewrite !addn0.
by rewrite IH //; congr mv_at; clear; lia.
Qed.
Lemma size_mvs_at k ns : size (mvs_at k ns) = size ns.
Proof. by elim: ns k => //= n ns IH k; rewrite IH. Qed.

(** Filling the incoming messages from the [i]-th on *)
Lemma fill_messages (pb : protoboard F) k (ins : seq nat) (ms : seq message) i a c :
  messages_fit (drop i ins) ms -> size a = (k + sumn (take i ins) + i)%N ->
  pb_values pb = a ++ flatten [seq nseq l.+1 0 | l <- drop i ins] ++ c ->
  ofold (fun pb (im : nat * message) => let! m := oget (mvs_at k ins) im.1 in mv_generate_witness pb m im.2)
     pb (zip (iota i (size ms)) ms) = Ok (with_values pb (a ++ incoming_wires (drop i ins) ms ++ c)).
Proof.
elim: ms i pb a => [|m ms IH] i pb a hf ha e /=.
  by rewrite /incoming_wires /= drop0 -e with_self.
have hk : (i < size ins)%N by move: (messages_fit_size hf); rewrite /= size_drop; clear; lia.
move: hf; rewrite (drop_nth 0%N hk) messages_fit_cons => /andP[/eqP em hf].
rewrite (oget_nth (mv_at 0 0)) ?size_mvs_at // obindE nth_mvs_at // /mv_generate_witness; cbn [mv_all_vars mv_at].
rewrite -ha; set ms' := msg_assignment m.
have sm : (nth 0%N ins i).+1 = size ms' by rewrite /ms' /= em.
rewrite sm (@fill_at pb a (nseq (size ms') 0) (flatten [seq nseq l.+1 0 | l <- drop i.+1 ins] ++ c)); last 2 first.
- by rewrite e (drop_nth 0%N hk); cbn [map flatten foldr]; rewrite -catA -sm.
- by rewrite size_nseq.
rewrite obindE (IH i.+1 _ (a ++ ms')) //; last first.
- by cbn [pb_values with_values]; rewrite -catA.
- rewrite size_cat ha (take_nth 0%N hk) sumn_rcons -sm; clear; lia.
rewrite with_with; congr (Ok (with_values pb _)).
by rewrite /incoming_wires /= -!catA.
Qed.

(** ** Reading variables *)
Lemma get_vals_iota (pb : protoboard F) k n : (k + n <= size (pb_values pb))%N ->
  get_vals pb (iota k.+1 n) = Ok (take n (drop k (pb_values pb))).
Proof.
elim: n k => [|n IH] k h /=; first by rewrite take0.
have hk : (k < size (pb_values pb))%N by move: h; clear; lia.
rewrite /get_vals; cbn [omapm]; rewrite {1}/pb_val hk; cbn [oassert]; rewrite (oget_nth 0) // obindE.
by rewrite -/(get_vals _ _) IH ?addSnnS // (drop_nth 0 hk).
Qed.
Lemma read_messages (pb : protoboard F) (ins : seq nat) (ms : seq message) k dm d :
  (k + (sumn ins + size ins) <= size (pb_values pb))%N -> (size ms <= size ins)%N ->
  (forall i, (i < size ins)%N -> get_vals pb (mv_all_vars (nth d (mvs_at k ins) i)) =
     Ok (if (i < size ms)%N then message_wires (nth dm ms i) else nseq (nth 0%N ins i).+1 0)) ->
  messages_fit ins ms /\ take (sumn ins + size ins) (drop k (pb_values pb)) = incoming_wires ins ms.
Proof.
elim: ins ms k => [|n ins IH] ms k hs hm h; first by case: ms hm h => // _ _; split=> //; rewrite take0.
have h0 := h 0%N isT; move: h0; cbn [mvs_at nth mv_at mv_all_vars]; rewrite get_vals_iota; last by move: hs => /=; clear; lia.
case=> e0.
have hs' : (k + n.+1 + (sumn ins + size ins) <= size (pb_values pb))%N by move: hs => /=; clear; lia.
have et : take (sumn (n :: ins) + size (n :: ins)) (drop k (pb_values pb)) =
  take n.+1 (drop k (pb_values pb)) ++ take (sumn ins + size ins) (drop (k + n.+1) (pb_values pb)).
  by rewrite -[(k + _)%N]addnC -drop_drop -takeD; congr take; rewrite /=; clear; lia.
rewrite et {et}; case: ms hm h e0 => [|m ms] hm h e0.
  have [_ ->] := IH [::] _ hs' isT (fun i hi => h i.+1 hi).
  by split=> //; rewrite e0 /incoming_wires /= !drop0.
have [hf ->] := IH ms _ hs' hm (fun i hi => h i.+1 hi).
split; last by rewrite e0 /incoming_wires /= -catA.
rewrite messages_fit_cons hf andbT; move: e0 => /(congr1 size); cbn [nth size leq subn]; rewrite /= size_takel.
  by case=> ->.
by rewrite size_drop; move: hs => /=; clear; lia.
Qed.

Lemma zeros out (ins : seq nat) loc wit :
  [::] ++ 0 :: nseq out 0 ++ 0 :: flatten [seq nseq l.+1 0 | l <- ins] ++ nseq loc 0 ++ nseq wit 0 =
  nseq (out.+2 + (sumn ins + size ins) + loc + wit) (0 : F).
Proof.
have c n : 0 :: nseq n 0 = nseq n.+1 (0 : F) by [].
have -> : flatten [seq nseq l.+1 (0 : F) | l <- ins] = nseq (sumn ins + size ins) 0.
  by elim: ins => //= l ls ->; rewrite -nseqD c; congr nseq; clear; lia.
rewrite cat0s -(nseqD loc) -(nseqD (_ + _)) c -nseqD c; congr nseq; clear; lia.
Qed.
Section Handler.
Variables (name type : nat) (same : bool) (accepted : seq nat) (out : nat) (ins : seq nat) (loc wit : nat).
Let h0 := handler_new F name type same accepted out ins loc wit.
Let k := (out.+2 + (sumn ins + size ins))%N.
Variable pb : protoboard F.
Hypotheses (hw : pb_wf pb) (hsz : size (pb_values pb) = size (pb_values (h_pb h0))).
Let h := with_pb h0 pb.

Lemma sizeE : size (pb_values pb) = (k + loc + wit)%N.
Proof. by rewrite hsz; have [_ [-> _ _ _]] := handler_newE name type same accepted out ins loc wit; rewrite /= size_nseq. Qed.
Lemma hE : h = CpHandler pb (mv_at 0 out) out.+2 (mvs_at out.+2 ins) (iota k.+1 loc) name type (size ins) same accepted.
Proof. by rewrite /h /h0; have [-> _] := handler_newE name type same accepted out ins loc wit. Qed.

Lemma map_mvs_at j ns : [seq (size (mv_all_vars m) - 1)%N | m <- mvs_at j ns] = ns.
Proof. by elim: ns j => //= n ns IH j; rewrite size_iota subn1 /= IH. Qed.
Lemma foldl_mvs_at j ns a : foldl (fun acc m => acc + size (mv_all_vars m))%N a (mvs_at j ns) = (a + (sumn ns + size ns))%N.
Proof. elim: ns j a => [|n ns IH] j a /=; rewrite ?IH /= ?size_iota; clear; lia. Qed.

Definition handler_cp : compliance_predicate F :=
  CompliancePredicate name type (R1cs out.+1 (1 + (sumn ins + size ins) + loc + wit) (constraints (pb_cs pb)))
    out (size ins) ins loc wit same accepted.
Lemma get_cpE : h_get_compliance_predicate h = Ok handler_cp.
Proof.
rewrite hE /h_get_compliance_predicate; cbn [h_pb h_incoming h_max_arity h_outgoing h_local h_name h_type h_same_type h_accepted].
rewrite size_mvs_at eqxx map_mvs_at foldl_addn num_vars_wf // sizeE; cbn [oassert mv_at mv_all_vars]; rewrite !size_iota subn1 /=.
rewrite /cp_new eqxx; cbn [oassert]; rewrite /handler_cp; congr (Ok (CompliancePredicate _ _ (R1cs _ _ _) _ _ _ _ _ _ _)); rewrite /k; clear; lia.
Qed.
Lemma handler_cp_wf : type != 0%N -> cp_is_well_formed handler_cp.
Proof.
move=> ht; rewrite /cp_is_well_formed foldl_addn; cbn [cp_type handler_cp cp_incoming_lengths cp_max_arity cp_outgoing_length cp_cs cp_local_length cp_witness_length].
rewrite ht eqxx /num_inputs /num_variables /= addn1 eqxx /=; apply/eqP; clear; lia.
Qed.
Lemma get_witnessE : h_get_witness h = Ok (drop (k + loc) (pb_values pb)).
Proof.
rewrite hE /h_get_witness; cbn [h_pb h_incoming h_outgoing h_local]; rewrite foldl_mvs_at; cbn [mv_at mv_all_vars]; rewrite !size_iota sizeE.
rewrite (_ : (out.+1 + 1 + (0 + (sumn ins + size ins)) + loc = k + loc)%N); last by rewrite /k; clear; lia.
by rewrite leq_addr.
Qed.

Lemma assembled (outm : message) (ms : seq message) ld dm d :
  get_vals pb (mv_all_vars (h_outgoing h)) = Ok (message_wires outm) ->
  pb_val pb (h_arity h) = Ok (size ms)%:R -> (size ms <= size ins)%N ->
  (forall i, (i < size ins)%N -> get_vals pb (mv_all_vars (nth d (h_incoming h) i)) =
     Ok (if (i < size ms)%N then message_wires (nth dm ms i) else nseq (nth 0%N ins i).+1 0)) ->
  get_vals pb (h_local h) = Ok ld ->
  [/\ messages_fit ins ms, size (msg_payload outm) = out, size ld = loc &
      pb_values pb = cp_wires ins outm ms ld (drop (k + loc) (pb_values pb))].
Proof.
have sz := sizeE; rewrite hE; cbn [h_outgoing h_arity h_incoming h_local mv_at mv_all_vars] => ho ha hm hi hl.
have s1 : (0 + out.+1 <= size (pb_values pb))%N by rewrite sz /k; clear; lia.
have s2 : (out.+2 + (sumn ins + size ins) <= size (pb_values pb))%N by rewrite sz /k; clear; lia.
have s3 : (k + loc <= size (pb_values pb))%N by rewrite sz; clear; lia.
move: ho; rewrite get_vals_iota // drop0 => -[ho].
have [hf hr] := read_messages s2 hm hi.
move: hl; rewrite get_vals_iota // => -[hl].
have ea : nth 0 (pb_values pb) out.+1 = (size ms)%:R.
  move: ha; rewrite /pb_val (_ : (out.+2 <= size (pb_values pb))%N); last by rewrite sz /k; clear; lia.
  cbn [oassert]; rewrite (oget_nth 0); last by rewrite sz /k; clear; lia.
  by case.
split=> //.
- by move: (congr1 size ho); rewrite size_takel //= => -[->].
- by rewrite -hl size_takel // size_drop sz; clear; lia.
rewrite /cp_wires -ho -hr -hl -ea.
rewrite -[LHS](cat_take_drop out.+1); congr (_ ++ _).
rewrite (drop_nth 0); last by rewrite sz /k; clear; lia.
congr (_ :: _); rewrite -[LHS](cat_take_drop (sumn ins + size ins)); congr (_ ++ _).
rewrite drop_drop (addnC _ out.+2) -/k -[LHS](cat_take_drop loc) drop_drop; congr (_ ++ drop _ _); clear; lia.
Qed.

Lemma assembled_satisfied (outm : message) (ms : seq message) ld dm d : type != 0%N ->
  get_vals pb (mv_all_vars (h_outgoing h)) = Ok (message_wires outm) ->
  pb_val pb (h_arity h) = Ok (size ms)%:R -> (size ms <= size ins)%N ->
  (forall i, (i < size ins)%N -> get_vals pb (mv_all_vars (nth d (h_incoming h) i)) =
     Ok (if (i < size ms)%N then message_wires (nth dm ms i) else nseq (nth 0%N ins i).+1 0)) ->
  get_vals pb (h_local h) = Ok ld ->
  cp_is_satisfied handler_cp outm ms ld (drop (k + loc) (pb_values pb)) = pb_is_satisfied pb.
Proof.
move=> ht h1 h2 h3 h4 h5; have [hf ho hl hv] := assembled h1 h2 h3 h4 h5.
rewrite cp_is_satisfiedE //; last exact: handler_cp_wf.
have hn : num_variables (pb_cs pb) = size (pb_values pb) by case: hw.
have hi : (pb_num_inputs pb <= size (pb_values pb))%N by rewrite -hn /pb_num_inputs /num_variables leq_addr.
rewrite /pb_is_satisfied /pb_primary_input /pb_auxiliary_input hi; cbn [obind]; rewrite /r1cs_is_satisfied.
rewrite size_takel // eqxx; cbn [oassert]; rewrite size_drop subnKC // hn eqxx cat_take_drop; cbn [oassert].
have -> : size (message_wires outm) == num_inputs (cp_cs handler_cp) by rewrite /= ho.
cbn [oassert]; rewrite -size_cat -/(cp_wires _ _ _ _ _) -hv sizeE.
have -> : (k + loc + wit)%N == num_variables (cp_cs handler_cp).
  by rewrite /num_variables /= /k; apply/eqP; clear; lia.
by [].
Qed.

Lemma cleared : pb_values (clear_values pb) = nseq (k + loc + wit) 0.
Proof. by rewrite -sizeE; cbn [clear_values with_values pb_values]; elim: (pb_values pb) => //= _ v ->. Qed.

Lemma generateE (ms : seq message) ld : messages_fit ins ms -> size ld = loc ->
  h_generate_witness h ms ld =
  Ok (with_pb h (with_values pb (type%:R :: nseq out 0 ++ (size ms)%:R :: incoming_wires ins ms ++ ld ++ nseq wit 0))).
Proof.
move=> hf hl; rewrite hE /h_generate_witness; cbn [h_pb h_outgoing mv_at mv_type h_arity h_incoming h_local h_type].
set pb0 := clear_values pb.
have wE v : with_values pb0 v = with_values pb v by rewrite /pb0 /clear_values with_with.
have e0 : pb_values pb0 = [::] ++ 0 :: nseq out 0 ++ 0 :: flatten [seq nseq l.+1 0 | l <- ins] ++ nseq loc 0 ++ nseq wit 0.
  by rewrite /pb0 cleared zeros.
rewrite (set_at (a := [::]) type%:R e0) obindE wE.
set v1 := _ ++ _.
have e1 : pb_values (with_values pb v1) = (type%:R :: nseq out 0) ++ 0 :: flatten [seq nseq l.+1 0 | l <- ins] ++ nseq loc 0 ++ nseq wit 0 by [].
have := set_at (size ms)%:R e1; rewrite [size (_ :: _)]/= size_nseq => ->; rewrite obindE with_with.
set pb2 := with_values pb _.
have e2 : pb_values pb2 = ((type%:R :: nseq out 0) ++ [:: (size ms)%:R]) ++ flatten [seq nseq l.+1 0 | l <- drop 0 ins] ++ nseq loc 0 ++ nseq wit 0.
  by rewrite /pb2 /= drop0 -!catA.
rewrite (fill_messages (k := out.+2) (i := 0) _ _ e2) ?drop0 //; last by rewrite size_cat /= size_nseq take0 /= !addn0 addn1.
rewrite obindE /pb2 with_with; set pb3 := with_values pb _.
have e3 : pb_values pb3 = (((type%:R :: nseq out 0) ++ [:: (size ms)%:R]) ++ incoming_wires ins ms) ++ nseq loc 0 ++ nseq wit 0 by rewrite /pb3 /= -!catA.
have := fill_at (vals := ld) e3; rewrite size_nseq hl => /(_ erefl).
have -> : size (((type%:R :: nseq out 0) ++ [:: (size ms)%:R]) ++ incoming_wires ins ms) = k.
  by rewrite size_cat (sum_incoming hf) size_cat /= size_nseq addn1.
move=> ->; rewrite obindE /pb3 with_with; congr (Ok (CpHandler (with_values pb _) _ _ _ _ _ _ _ _ _)).
by rewrite -!catA.
Qed.
End Handler.

Lemma generate_too_many name type same accepted out ins loc wit (pb : protoboard F) (ms : seq message) m more ld :
  pb_wf pb -> size (pb_values pb) = size (pb_values (h_pb (handler_new F name type same accepted out ins loc wit))) ->
  messages_fit ins ms -> size ms = size ins ->
  h_generate_witness (with_pb (handler_new F name type same accepted out ins loc wit) pb) (ms ++ m :: more) ld = UB.
Proof.
move=> hw hsz hf hm; rewrite (hE _ _ _ _ _ _ _ _ _) /h_generate_witness; cbn [h_pb h_outgoing mv_at mv_type h_arity h_incoming h_local h_type].
set pb0 := clear_values pb.
have wE v : with_values pb0 v = with_values pb v by rewrite /pb0 /clear_values with_with.
have e0 : pb_values pb0 = [::] ++ 0 :: nseq out 0 ++ 0 :: flatten [seq nseq l.+1 0 | l <- ins] ++ nseq loc 0 ++ nseq wit 0.
  by rewrite /pb0 (cleared hsz) zeros.
rewrite (set_at (a := [::]) type%:R e0) obindE wE.
set v1 := _ ++ _; set n := size (ms ++ m :: more).
have e1 : pb_values (with_values pb v1) = (type%:R :: nseq out 0) ++ 0 :: flatten [seq nseq l.+1 0 | l <- ins] ++ nseq loc 0 ++ nseq wit 0 by [].
have := set_at n%:R e1; rewrite [size (_ :: _)]/= size_nseq => ->; rewrite obindE with_with.
set pb2 := with_values pb _.
have e2 : pb_values pb2 = ((type%:R :: nseq out 0) ++ [:: n%:R]) ++ flatten [seq nseq l.+1 0 | l <- drop 0 ins] ++ nseq loc 0 ++ nseq wit 0.
  by rewrite /pb2 /= drop0 -!catA.
have en : iota 0 n = iota 0 (size ms) ++ iota (size ms) (size more).+1 by rewrite /n size_cat iotaD.
rewrite en zip_cat ?size_iota // ofold_cat.
rewrite (fill_messages (k := out.+2) (i := 0) _ _ e2) ?drop0 //; last by rewrite size_cat /= size_nseq take0 /= !addn0 addn1.
by rewrite obindE; cbn [size iota zip ofold fst]; rewrite oget_UB // size_mvs_at hm.
Qed.

(** ** Serialization *)
Lemma get_sizes_put l s : get_sizes (size l) (put_sizes l ++ s) = Ok (l, s).
Proof.
rewrite /get_sizes /put_sizes; apply: (get_n_put (p := fun i => put_size i ++ [:: newline])) => i r.
by rewrite -catA cat1s get_size_nl; cbn [obind fst snd]; rewrite consume_nl.
Qed.
Ltac go := repeat (cbn [obind fst snd oassert];
  first [rewrite get_size_nl | rewrite consume_nl | rewrite get_bool_put]); cbn [obind fst snd oassert].
Ltac flat := repeat match goal with
  | |- context [(?a ++ ?b) ++ ?c] => rewrite -(catA a b c)
  | |- context [(?x :: ?a) ++ ?b] => change ((x :: a) ++ b) with (x :: (a ++ b))
  | |- context [[::] ++ ?b] => change ([::] ++ b) with b end.
Lemma cp_reads binary (cF : codec F) (cp : compliance_predicate F) rest : reads_back_line binary cF ->
  cp_max_arity cp = size (cp_incoming_lengths cp) ->
  exists2 s, put_cp binary cF cp = Ok s & get_cp binary cF (s ++ rest) = Ok (cp, rest).
Proof.
case: cp => nm ty cs o ar is_ l w sm acc hF /= ->; rewrite /put_cp; cbn [cp_max_arity cp_incoming_lengths]; rewrite eqxx; cbn [oassert].
eexists; first by []. 
rewrite /get_cp; cbn [cp_name cp_type cp_cs cp_outgoing_length cp_max_arity cp_incoming_lengths cp_local_length cp_witness_length cp_same_type cp_accepted].
have p3 a b c s : put_sizes [:: a; b; c] ++ s = put_size a ++ newline :: put_size b ++ newline :: put_size c ++ newline :: s.
  by rewrite /put_sizes /= !cats0 -!catA !cat1s.
flat; rewrite p3; go.
rewrite get_sizes_put; cbn [obind fst snd]; rewrite p3; go.
rewrite get_sizes_put; go; rewrite (r1cs_rb hF); by go.
Qed.
End Facts.
