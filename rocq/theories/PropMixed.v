(** Property C82: conjunctions with primitives defined by users of the library. *)
From Coq Require Import String Znumtheory Lia.
From Verif Require Import Base World Val Expr Utils Stmt Prove Verify Spec Shapes Claims Honest Clauses Supply Extract Custom Mixed MixedProofs2 MixedSound MixedLink MixedNone
  ZqWorld Ex ExTree PropSound PropCustom.
Open Scope Z_scope.
Open Scope list_scope.

(** The primitives of the library are such classes: conjunctions of their objects and of other statements do the same as those of the
    other theorems. *)
Theorem C82_library_prove : forall (W : World) l subs sd msg a, Forall2 libpart l subs ->
  uprove l sd msg a = match prove (SAnd subs false) sd msg a with Ok ((z, _), a') => Ok (z, a') | Err e => Err e end.
Proof. exact @ulink_prove. Qed.
Print Assumptions C82_library_prove.
Theorem C82_library_verify : forall (W : World) l subs z msg a, Forall2 libpart l subs ->
  uverify l z msg a = match verify (SAnd subs false) z msg a with Ok ((r, _), a') => Ok (r, a') | Err e => Err e end.
Proof. exact @ulink_verify. Qed.
Print Assumptions C82_library_verify.
Example C82_library_ex : Forall2 libpart [US exDL; UK (class_of exNeqK); US exOr; UK (class_of exRangeK)]
  [exDL; SExt exNeqK false VNone None; exOr; SExt exRangeK false VNone None].
Proof. repeat (constructor; [constructor|]). constructor. Qed.

(** C82, partial. Take any list of objects of users' classes and of statements without primitives. Let the methods of the classes,
    called one after the other as precommit() of the conjunction does, return precommitments [pres] and statements without primitives
    that hold for one assignment of values to all secrets, which the prover has. Then prove() of the conjunction returns a proof.
    verify() of a conjunction of objects of classes of the same names accepts it if their construct_stmt makes of the precommitments
    statements of the same form, with the verifier's own secrets, and their validate raises nothing. Excluded: secrets shared between
    an or-clause and the rest (Apart), messages of 2^32 bytes, conjunctions all of whose precommitments are None, parts with
    primitives of the library among the statements (as classes they are covered). Disjunctions are C83. *)
Theorem C82_complete_partial : forall (W : World) U w ord l sd msg a pres cs, wfL U -> entries_ok U w sd -> agree w (env a) U ->
  (forall s, In (US s) l -> hon U w s sd (env a)) ->
  (forall ps subs a1, uget l sd a = Ok ((Some (PAnd ps), SAnd subs false), a1) -> sincere (hon U w) l ps a1 pres cs) ->
  Ords ord (SAnd cs false) -> Apart (SAnd cs false) -> (exists pre, In pre pres /\ pre <> VNone) ->
  (exists z a', uprove l sd msg a = Ok (z, a') /\
     forall f g lv cvs stv stv', receives l lv pres cvs stv stv' -> Forall2 (Pat f g) cs cvs ->
     uverify lv z msg stv = Ok (true, stv')) \/ uoversized l sd a.
Proof. exact @mixed_complete. Qed.
Print Assumptions C82_complete_partial.

(** The classes of the example of C73 and a representation: 12 = x*3 with a commitment x*3 + t*5, 21 = u*3, and the ciphertext
    (x*3, x*5 + u*3), for x = 4, u = 7. *)
Definition mU := [sx; stx; su].
Definition mw (n : bytes) : Z := if bytes_eqb n (lit "x") then 4 else if bytes_eqb n (lit "u") then 7 else 23.
Definition msd : dict Z := [(sx, 4); (su, 7)].
Definition mD : @stmt Zq := SDL (mkDL (Pt 21) [Pt 3] [su] [] false).
Definition mD1 : @stmt Zq := SDL (mkDL (Pt 21) [Pt 3] [su] msd true).
Definition mE : cls := exElg (Pt 12) (Pt 41) su sx.
Definition ml : list upart := [UK (exCom sx stx); US mD; UK mE].
Definition mE1 : stmt := SAnd [SDL (mkDL (Pt 12) [Pt 3] [sx] [(sx, 4)] false);
  SDL (mkDL (Pt 41) [Pt 5; Pt 3] [sx; su] [(sx, 4); (su, 7)] false)] false.
Definition mcs : list stmt := [exCc; mD; mE1].
Definition mpres : list val := [exCp; VList []].
Definition ma1 : st := mkSt (upd (upd (upd (upd (upd (upd (fun _ => None) 0%nat (Some 4)) 3%nat (Some 7)) 0%nat (Some 4)) 3%nat (Some 7)) 0%nat (Some 4)) 3%nat (Some 7)) (tape st0) 0.
Definition mlv : list upart := [UK (exCom (T 20 "x") (T 21 "t")); US (SDL (mkDL (Pt 21) [Pt 3] [T 22 "u"] [] false));
  UK (exElg (Pt 12) (Pt 41) (T 22 "u") (T 20 "x"))].
Definition mEv : stmt := SAnd [SDL (mkDL (Pt 12) [Pt 3] [T 20 "x"] [] false); SDL (mkDL (Pt 41) [Pt 5; Pt 3] [T 20 "x"; T 22 "u"] [] false)] false.
Definition mcvs : list stmt := [exCcv; SDL (mkDL (Pt 21) [Pt 3] [T 22 "u"] [] false); mEv].
Definition ma2 : st := mkSt (upd (env ma1) 6%nat (Some 23)) (tape st0) 1.
Definition ma3 : st := mkSt (upd (upd (env ma2) 0%nat (Some 4)) 3%nat (Some 7)) (tape st0) 1.
Lemma m_entries l : incl l [(sx, 4); (stx, 23); (su, 7)] -> entries_ok mU mw l.
Proof. intros I k v H. apply I in H. destruct H as [[= <- <-]|[[= <- <-]|[[= <- <-]|[]]]]; split; try reflexivity; in_list. Qed.
Lemma no_clause (V : @stmt Zq -> list secret) s pre o post : clause V s pre o post -> noor s -> False.
Proof.
  induction 1 as [subs b c|l1 s l2 b pre o post H IH]; intros N; inversion N as [|? ? F|]; subst. apply IH.
  rewrite Forall_forall in F. apply F. apply in_elt.
Qed.
Lemma m_wfL : wfL mU. Proof. apply wfLb_ok. reflexivity. Qed.
Definition mgood (sv : dict Z) (d : @dlrep Zq) : Prop :=
  incl (dl_secs d) mU /\ dl_shape d /\ dl_true mw d /\ entries_ok mU mw (dl_vals d) /\ forall x, In x (dl_secs d) -> known (dl_vals d) x \/ known sv x.
Lemma m_dl sv e d : mgood sv d -> entries_ok mU mw sv -> agree mw e mU -> hon mU mw (SDL d) sv e.
Proof.
  intros (A1 & A2 & A3 & A4 & A5) D A. destruct A2 as (L & N & G). split; [constructor|]. split; [|split; [now apply ShDL|now apply SuDL]].
  constructor; [now apply SoDL|exact m_wfL|exact (NoDup_nil _)|intros x y []|now apply TrDL|now apply VaDL|exact D|exact A].
Qed.
Lemma m_and sv e a b : mgood sv a -> mgood sv b -> entries_ok mU mw sv -> agree mw e mU -> hon mU mw (SAnd [SDL a; SDL b] false) sv e.
Proof.
  intros A B D AG. destruct (m_dl sv e a A D AG) as (A1 & [A2 _ _ _ A3 A4 _ _] & A5 & A6). destruct (m_dl sv e b B D AG) as (B1 & [B2 _ _ _ B3 B4 _ _] & B5 & B6).
  split; [repeat constructor|]. split; [|split].
  - constructor; [|exact m_wfL|exact (NoDup_nil _)|intros x y []| | |exact D|exact AG].
    + apply SoAnd. constructor; [|constructor; [|constructor]]; assumption.
    + apply TrAnd. constructor; [|constructor; [|constructor]]; assumption.
    + apply VaAnd. constructor; [|constructor; [|constructor]]; assumption.
  - apply ShAnd. constructor; [|constructor; [|constructor]]; assumption.
  - apply SuAnd. constructor; [|constructor; [|constructor]]; assumption.
Qed.
Ltac mgood_tac := split; [incl_list|split; [split; [reflexivity|split; [discriminate|repeat constructor]]|split; [split; [repeat constructor|pteq]|
  split; [apply m_entries; incl_list|]]]]; let x := fresh in let H := fresh in intros x H; simpl in H; right.
Lemma m_env e : e 0%nat = Some 4 -> e 3%nat = Some 7 -> (e 6%nat = None \/ e 6%nat = Some 23) -> agree mw e mU.
Proof.
  intros A B C x v [<-|[<-|[<-|[]]]] H; cbn in H.
  - rewrite A in H. injection H as <-. reflexivity.
  - destruct C as [C|C]; rewrite C in H; [discriminate|]. injection H as <-. reflexivity.
  - rewrite B in H. injection H as <-. reflexivity.
Qed.
Lemma m_dlA : mgood msd (mkDL (Pt 12) [Pt 3] [sx] [(sx, 4)] false).
Proof. mgood_tac. destruct H0 as [<-|[]]. exists sx, 4. split; [in_list|reflexivity]. Qed.
Lemma m_dlB : mgood msd (mkDL exCP [Pt 3; Pt 5] [sx; stx] [(sx, 4); (stx, 23)] false).
Proof.
  split; [incl_list|]. split; [split; [reflexivity|split; [discriminate|repeat constructor]]|]. split; [split; [repeat constructor|pteq]|].
  split; [apply m_entries; incl_list|]. intros x [<-|[<-|[]]]; left; [exists sx, 4|exists stx, 23]; (split; [in_list|reflexivity]).
Qed.
Lemma m_dlC : mgood msd (mkDL (Pt 41) [Pt 5; Pt 3] [sx; su] [(sx, 4); (su, 7)] false).
Proof. mgood_tac. destruct H0 as [<-|[<-|[]]]; [exists sx, 4|exists su, 7]; (split; [in_list|reflexivity]). Qed.
Lemma m_dlD : mgood msd (mkDL (Pt 21) [Pt 3] [su] [] false).
Proof. mgood_tac. destruct H0 as [<-|[]]. exists su, 7. split; [in_list|reflexivity]. Qed.
Lemma m_sd : entries_ok mU mw msd. Proof. apply m_entries. incl_list. Qed.
Example C82_ex :
  wfL mU /\ entries_ok mU mw msd /\ agree mw (env st0) mU /\ (forall s, In (US s) ml -> hon mU mw s msd (env st0)) /\
  (forall ps subs a1, uget ml msd st0 = Ok ((Some (PAnd ps), SAnd subs false), a1) -> sincere (hon mU mw) ml ps a1 mpres mcs) /\
  Ords exord (SAnd mcs false) /\ Apart (SAnd mcs false) /\ (exists pre, In pre mpres /\ pre <> VNone) /\
  (* the verifier *)
  receives ml mlv mpres mcvs st0 st0 /\ Forall2 (Pat tick untick) mcs mcvs.
Proof.
  split; [exact m_wfL|]. split; [exact m_sd|]. split; [intros x v [<-|[<-|[<-|[]]]] H; discriminate H|].
  assert (AG : forall s, In s [env ma1; env ma2; env ma3] -> agree mw s mU).
  { intros s [<-|[<-|[<-|[]]]]; (apply m_env; [reflexivity|reflexivity|]); [left|right|right]; reflexivity. }
  assert (A0 : agree mw (env st0) mU) by (intros x v [<-|[<-|[<-|[]]]] H; discriminate H).
  split; [|split; [|split; [|split; [|split; [|split]]]]].
  - intros s [E|[E|[E|[]]]]; try discriminate E. injection E as <-. apply m_dl; auto using m_dlD, m_sd.
  - intros ps subs a1 H.
    assert (G : uget ml msd st0 = Ok ((Some (PAnd [PExt msd None; PDL None; PExt msd None]), SAnd [obj_of (exCom sx stx) VNone None; mD1; obj_of mE VNone None] false), ma1))
      by reflexivity.
    rewrite G in H. injection H as <- <- <-. clear G. cbn [sincere ml mcs].
    exists exCp, [VList []], ma2, ma2. split; [reflexivity|]. split; [reflexivity|]. split; [reflexivity|].
    split; [apply m_and; [exact m_dlA|exact m_dlB|exact m_sd|apply AG; in_list]|]. intros r a3 H.
    assert (E : a3 = ma3) by (cbn in H; unfold ret in H; injection H as _ <-; reflexivity). subst a3. clear H. split; [reflexivity|].
    exists (VList []), [], ma3, ma3. split; [reflexivity|]. split; [reflexivity|]. split; [reflexivity|].
    split; [apply m_and; [exact m_dlA|exact m_dlC|exact m_sd|apply AG; in_list]|]. intros r' a3 _. reflexivity.
  - apply OrAnd. constructor; [|constructor; [|constructor; [|constructor]]]; try ex_ords;
      (apply OrAnd; constructor; [ex_ords|constructor; [ex_ords|constructor]]).
  - assert (AD : forall d, Apart (SDL d)) by (intros d; constructor).
    assert (N : forall a b, noor (SAnd [SDL a; SDL b] false)) by (intros a b; repeat constructor).
    assert (AA : forall subs, Forall Apart subs -> Forall noor subs -> Apart (SAnd subs false)).
    { intros subs F G. apply ApAnd; auto. intros pre o post x y H. exfalso. exact (no_clause _ _ _ _ _ H (NoAnd _ _ G)). }
    assert (A2 : forall a b, Apart (SAnd [SDL a; SDL b] false)) by (intros a b; apply AA; repeat constructor).
    apply AA; unfold mcs.
    + exact (Forall_cons _ (A2 _ _) (Forall_cons _ (AD _) (Forall_cons _ (A2 _ _) (Forall_nil _)))).
    + exact (Forall_cons _ (N _ _) (Forall_cons _ (NoDL _) (Forall_cons _ (N _ _) (Forall_nil _)))).
  - exists exCp. split; [in_list|discriminate].
  - cbn [receives ml mlv mcvs]. exists exCp, [VList []], st0. do 4 (split; [reflexivity|]). split; [reflexivity|].
    exists (VList []), [], st0. do 4 (split; [reflexivity|]). reflexivity.
  - constructor; [|constructor; [|constructor; [|constructor]]].
    + apply PaAnd. constructor; [|constructor; [|constructor]]; (apply PaDL; [reflexivity|reflexivity|]; repeat constructor; vm_compute; reflexivity).
    + apply PaDL; [reflexivity|reflexivity|]; repeat constructor; vm_compute; reflexivity.
    + apply PaAnd. constructor; [|constructor; [|constructor]]; (apply PaDL; [reflexivity|reflexivity|]; repeat constructor; vm_compute; reflexivity).
Qed.
(** The messages of the example are not too big: the verifier does accept. Not with another ciphertext, nor with the parts in another
    order. *)
Definition mround (lv : list upart) : bool :=
  match uprove ml msd (lit "m") st0 with
  | Ok (z, _) => match uverify lv z (lit "m") st0 with Ok (b, _) => b | Err _ => false end
  | Err _ => false end.
Example C82_ex_accepted : mround mlv = true /\
  mround [UK (exCom (T 20 "x") (T 21 "t")); US (SDL (mkDL (Pt 21) [Pt 3] [T 22 "u"] [] false)); UK (exElg (Pt 12) (Pt 42) (T 22 "u") (T 20 "x"))] = false /\
  mround [UK (exCom (T 20 "x") (T 21 "t")); UK (exElg (Pt 12) (Pt 41) (T 22 "u") (T 20 "x")); US (SDL (mkDL (Pt 21) [Pt 3] [T 22 "u"] [] false))] = false.
Proof. split; [|split]; vm_compute; reflexivity. Qed.

(** C82, soundness. A verifier of a conjunction of objects of any classes and of any statements, primitives of the library included,
    that accepts two answers to one commitment and precommitment: there are values, computed from the answers, the same for all parts,
    for which the statements hold that construct_stmt of the classes makes of the precommitments; and validate() of the classes has
    raised nothing for them. Partial: without disjunctions, *)
Theorem C82_sound_partial : forall (W : World) l pre st v s st1 e com ch ch' r r',
  uprocess l pre st = Ok ((v, s), st1) -> wfs s -> coh e (svars s) -> noor s ->
  orders_in (fun q => prime q /\ ~ (q | ch - ch')) s ->
  uverify_resp e l s v com ch r = Ok true -> uverify_resp e l s v com ch' r' = Ok true ->
  exists w, Extr w s ch ch' r r' /\ Sat w s /\
  forall i K, nth_error l i = Some (UK K) -> exists p c a a' ri ri', index pre i = Ok p /\ c_con K p a = Ok (c, a') /\ c_val K p = Ok tt /\
    index r i = Ok ri /\ index r' i = Ok ri' /\ Extr w c ch ch' ri ri' /\ Sat w c.
Proof. exact @mixed_sound. Qed.
Print Assumptions C82_sound_partial.
(** or with disjunctions under the conditions of C11. *)
Theorem C82_sound_or_partial : forall (W : World) l pre st v s st1 e com ch ch' r r',
  uprocess l pre st = Ok ((v, s), st1) -> wfs s -> coh e (svars s) ->
  orders_in (fun q => prime q /\ ~ (q | ch - ch') /\ 2 ^ 129 <= q) s -> canonical s r -> canonical s r' -> ~ (2 ^ 128 | ch - ch') ->
  uverify_resp e l s v com ch r = Ok true -> uverify_resp e l s v com ch' r' = Ok true ->
  exists w, Extr w s ch ch' r r' /\ Sat w s /\
  forall i K, nth_error l i = Some (UK K) -> exists p c a a' ri ri', index pre i = Ok p /\ c_con K p a = Ok (c, a') /\ c_val K p = Ok tt /\
    index r i = Ok ri /\ index r' i = Ok ri' /\ Extr w c ch ch' ri ri' /\ Sat w c.
Proof. exact @mixed_sound_or. Qed.
Print Assumptions C82_sound_or_partial.

(** x = 4, t = 23, u = 7, randomizers 10, 20 and 30, challenges 2 and 5 *)
Definition mpre : val := VList [exCp; VNone; VList []].
Definition mS : @stmt Zq := SAnd [obj_of (exCom (T 20 "x") (T 21 "t")) exCp (Some exCcv); SDL (mkDL (Pt 21) [Pt 3] [T 22 "u"] [] false);
  obj_of (exElg (Pt 12) (Pt 41) (T 22 "u") (T 20 "x")) (VList []) (Some mEv)] false.
Definition mV : verifier := RAnd [RExt (Some (RAnd [RDL; RDL])); RDL; RExt (Some (RAnd [RDL; RDL]))].
Definition mcom : @val Zq := VList [VList [VPt (Pt 30); VPt (Pt 130)]; VPt (Pt 90); VList [VPt (Pt 30); VPt (Pt 140)]].
Definition mresp (x t u : Z) : @val Zq := VList [VList [VList [VInt x]; VList [VInt x; VInt t]]; VList [VInt u]; VList [VList [VInt x]; VList [VInt x; VInt u]]].
Example C82_sound_ex :
  uprocess mlv mpre st0 = Ok ((mV, mS), st0) /\ wfs mS /\ coh (env st0) (svars mS) /\ noor mS /\ orders_in (fun q => prime q /\ ~ (q | 2 - 5)) mS /\
  uverify_resp (env st0) mlv mS mV mcom 2 (mresp 18 66 44) = Ok true /\ uverify_resp (env st0) mlv mS mV mcom 5 (mresp 30 135 65) = Ok true /\
  (* not with different responses for x *)
  uverify_resp (env st0) mlv mS mV mcom 5 (VList [VList [VList [VInt 30]; VList [VInt 30; VInt 135]]; VList [VInt 65]; VList [VList [VInt 131]; VList [VInt 131; VInt 65]]])
    = Err EValidation.
Proof.
  assert (P : prime 101 /\ ~ (101 | 2 - 5)) by (split; [exact prime101|intros [k H]; lia]).
  split; [reflexivity|]. split; [repeat constructor|]. split; [intros x y _ _ _; reflexivity|]. split; [repeat constructor|].
  split; [|split; [|split]; vm_compute; reflexivity].
  apply OiAnd. constructor; [|constructor; [|constructor; [|constructor]]]; [apply OiExt, OiAnd|apply OiDL; exact P|apply OiExt, OiAnd];
    (constructor; [|constructor; [|constructor]]; apply OiDL; exact P).
Qed.
(** with the disjunction of the example of C11 *)
Example C82_sound_or_ex :
  let l := [UK exEither] in let pre := VList [VList []] in let s := SAnd [obj_of exEither (VList []) (Some exB)] false in
  let v := RAnd [RExt (Some (get_verifier exB))] in
  uprocess l pre st0 = Ok ((v, s), st0) /\ wfs s /\ coh (env st0) (svars s) /\
  orders_in (fun q => prime q /\ ~ (q | 100 - 200) /\ 2 ^ 129 <= q) s /\ canonical s (VList [exBr 91]) /\ canonical s (VList [exBr 191]) /\ ~ (2 ^ 128 | 100 - 200) /\
  uverify_resp (env st0) l s v (VList [exBcom]) 100 (VList [exBr 91]) = Ok true /\
  uverify_resp (env st0) l s v (VList [exBcom]) 200 (VList [exBr 191]) = Ok true.
Proof.
  destruct C11_ex as (_ & A & B & C & D & E & F & _). cbv zeta. split; [reflexivity|]. split; [constructor; constructor; [constructor; exact A|constructor]|].
  split; [intros x y I J; apply B; [revert I|revert J]; cbn; rewrite ?app_nil_r; auto|].
  split; [constructor; constructor; [constructor; exact C|constructor]|].
  split; [|split; [|split; [exact F|split; vm_compute; reflexivity]]];
    (apply CaAnd; intros [|[|i]] s ri N I; try discriminate N; injection N as <-; injection I as <-; apply CaExt; assumption).
Qed.

(** The precommitments that C73 and C82 exclude. If precommit() of a class returns None, prove() can return a proof, but verify() of no
    class accepts it. *)
Theorem C73_none_refuted : forall (W : World) K sd msg a a0 a1 z a', update_secret_values sd a = Ok (tt, a0) -> c_pre K a0 = Ok (VNone, a1) ->
  cprove K sd msg a = Ok (z, a') -> forall KV stv, cverify KV z msg stv = Err EValueErr.
Proof. exact @none_never. Qed.
Print Assumptions C73_none_refuted.
(** If it returns a string, prove() raises. *)
Theorem C73_string_refuted : forall (W : World) K sd msg a a0 b a1, update_secret_values sd a = Ok (tt, a0) -> c_pre K a0 = Ok (VStr b, a1) ->
  forall r, cprove K sd msg a <> Ok r.
Proof. exact @string_never. Qed.
Print Assumptions C73_string_refuted.
(** In a conjunction this is so if no part has a precommitment. *)
Theorem C82_none_refuted : forall (W : World) l sd msg a z a' lv K, Forall silent l -> uprove l sd msg a = Ok (z, a') -> In (UK K) lv ->
  forall stv r, uverify lv z msg stv <> Ok r.
Proof. exact @silent_never. Qed.
Print Assumptions C82_none_refuted.
(** The ciphertext of the example with precommit() that returns None or "a": proofs exist in the first case, and in a conjunction with
    one of the other class they are accepted. *)
Definition exMute (K : cls) (v : @val Zq) : cls := mkCls (c_name K) (ret v) (c_con K) (c_sim K) (c_val K).
Definition accepted (l lv : list upart) : bool :=
  match uprove l msd (lit "m") st0 with
  | Ok (z, _) => match uverify lv z (lit "m") st0 with Ok (b, _) => b | Err _ => false end
  | Err _ => false end.
Example C82_none_ex :
  let KV := exElg (Pt 12) (Pt 41) (T 22 "u") (T 20 "x") in
  c_pre (exMute mE VNone) st0 = Ok (VNone, st0) /\ c_pre (exMute mE (VStr (lit "a"))) st0 = Ok (VStr (lit "a"), st0) /\
  (exists z a, cprove (exMute mE VNone) msd (lit "m") st0 = Ok (z, a)) /\
  Forall silent [UK (exMute mE VNone); US mD] /\ (exists z a, uprove [UK (exMute mE VNone); US mD] msd (lit "m") st0 = Ok (z, a)) /\
  accepted [UK (exMute mE VNone); UK mE] [UK (exMute KV VNone); UK KV] = true /\
  accepted [UK (exMute mE (VStr (lit "a"))); US mD] [UK (exMute KV VNone); US (SDL (mkDL (Pt 21) [Pt 3] [T 22 "u"] [] false))] = true.
Proof.
  cbv zeta. split; [reflexivity|]. split; [reflexivity|]. split; [apply okb_proof; vm_compute; reflexivity|].
  split; [constructor; [intros a x a' H; injection H as <- _; reflexivity|constructor; [exists (mkDL (Pt 21) [Pt 3] [su] [] false); reflexivity|constructor]]|].
  split; [apply okb_proof; vm_compute; reflexivity|]. split; vm_compute; reflexivity.
Qed.
