(** Sample schemas for the examples beside the theorems on the generator. *)
From Coq Require Import Lia Permutation.
From Verif Require Import Bytes BaseProofs Num Types ProtoLex ProtoParse SpecProto SpecSchema Cpp Gen MainC SpecGen SpecCpp SpecFile SpecOpts GenText GenFile BackProofs.

(** tests/test1.proto of the project. *)
Definition test1_text : bytes := b "syntax = ""proto3"";
package phonebook;

option cpp_use_lists = true;

message PhoneNumber
{
    string number = 1;
    bool type = 2;
}

message Person
{
    string name = 1;
    int32 id = 2;
    string email = 3 [name = ""e-mail""];
    repeated PhoneNumber phones = 4;
    int32 last_updated = 5;
}

message AddressBook
{
    Person owner = 1;
    repeated Person people = 2;
}

".

Definition tree (r : pres proto) : proto := match r with POk p => p | _ => Proto [] [] [] end.
Definition test1 : proto := tree (parse test1_text (b "/repo/tests/test1.proto")).
Lemma test1_parsed : parse test1_text (b "/repo/tests/test1.proto") = POk test1.
Proof. vm_compute. reflexivity. Qed.

(** A build without runtime headers, to keep computations short. *)
Definition bare : build := Build (b "9.8.7") (b "_9_8_7") [] [] [] [] [] [].
Lemma bare_fine : build_fine bare.
Proof. unfold build_fine, bare. repeat (apply Forall_cons; [split; intros []|]). apply Forall_nil. Qed.

Lemma id_permutes : permutes (fun l => l).
Proof. intros l. apply Permutation_refl. Qed.

(** A schema that generates is fine. *)
Definition succeeds (p : proto) : bool := match snd (generate bare p) with GOk _ => true | _ => false end.
Lemma succeeds_fine p : refs_ok (pr_messages p) -> succeeds p = true -> proto_fine p.
Proof.
  intros R S. destruct (generate_exact bare p bare_fine R) as [(F & _)|(_ & t & e & l & c & G & _)]; [exact F|]. unfold succeeds in S. rewrite G in S. discriminate.
Qed.

Lemma test1_refs : refs_ok (pr_messages test1).
Proof. exact (parsed_refs _ _ _ test1_parsed). Qed.
Lemma test1_fine : proto_fine test1.
Proof. apply succeeds_fine; [exact test1_refs|]. vm_compute. reflexivity. Qed.

(** Messages in a cycle of three, with one outside. *)
Definition ring_text : bytes := b "message D{A a=1;}message A{B b=1;int32 x=2;}message B{string s=1;repeated C c=2;}message C{A a=7;}".
Definition ring : proto := tree (parse ring_text (b "ring.proto")).
Lemma ring_parsed : parse ring_text (b "ring.proto") = POk ring.
Proof. vm_compute. reflexivity. Qed.
Lemma ring_refs : refs_ok (pr_messages ring).
Proof. exact (parsed_refs _ _ _ ring_parsed). Qed.

(** A message with [n] fields. *)
Definition wide_proto (n : nat) : proto :=
  Proto [Msg (map (fun k => Fld FBool [] None false false (b "f" ++ dec (Z.of_nat k)) (Z.of_nat k) []) (seq 1 n)) (b "W") [] []] [] (b "w.proto").
Lemma wide_refs n : refs_ok (pr_messages (wide_proto n)).
Proof.
  intros m f [<-|[]] F. cbn [m_fields] in F. apply in_map_iff in F as (k & <- & _). cbn [f_ref f_type]. split; discriminate.
Qed.

(** The text does not matter. *)
Lemma outcome_exists {A} (g : G A) (r : gout A) : snd g = r -> exists t, g = (t, r).
Proof. intros <-. exists (fst g). apply surjective_pairing. Qed.

(** ** Failing runs spoil the output *)
Definition one_file (text : bytes) : fsys := FS (fun f => if bytes_eqb f (b "f") then Some text else None) (fun _ => true) (fun f => Some f).

Lemma main_spoils :
  (exists fs err, main bare (fun l => l) fs [b "f"; b "o"] = PrExit 1 err [] (Some (b "o", []))) /\ (exists fs err out, main bare (fun l => l) fs [b "f"; b "o"] = PrExit 1 err [] (Some (b "o", out)) /\ (1000 < length out)%nat).
Proof.
  split.
  - exists (one_file (b "messag M{}")). eexists. vm_compute. reflexivity.
  - exists (one_file (b "message M{int32 a=1[transient=x];}")).
    assert (X : match main bare (fun l => l) (one_file (b "message M{int32 a=1[transient=x];}")) [b "f"; b "o"] with
                | PrExit 1 _ [] (Some (f, out)) => f = b "o" /\ Nat.ltb 1000 (length out) = true
                | _ => False end) by (vm_compute; auto).
    destruct (main bare (fun l => l) (one_file (b "message M{int32 a=1[transient=x];}")) [b "f"; b "o"]) as [[|[?|?|]|?] err [|] [(f & out)|]|]; try contradiction.
    destruct X as (-> & L). exists err, out. split; [reflexivity|]. now apply Nat.ltb_lt.
Qed.
