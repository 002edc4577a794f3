(** * C25: examples, and what is not true of the JSON loader *)

From Coq Require Import Ascii String List Bool Arith ZArith Lia.
From Verif Require Import Base Data_Model Data_Text Data_Proofs Data_CSV Data_Infer Data_Ops Json_Model Json_Spec Json_Props.
Import ListNotations.
Local Open Scope nat_scope.
Local Open Scope list_scope.
Local Open Scope char_scope.

(** ** A plain way to write objects *)
Definition escape (v : str) : str := flat_map (fun c => if (c =? """") || (c =? "\") then ["\"; c] else [c]) v.
Definition w_string (v : str) : str := """" :: escape v ++ [""""].
Definition w_value (v : jval) : str :=
  match v with JString v => w_string v | JNumber n => n | JBool b => if b then L "true" else L "false" | JNull => L "null" end.
Definition w_pair (p : str * jval) : str := w_string (fst p) ++ ":" :: w_value (snd p).
Definition w_items {A} (w : A -> str) (l : list A) : str := match l with [] => [] | x :: l => w x ++ flat_map (fun y => "," :: w y) l end.
Definition w_object (o : jobj) : str := "{" :: w_items w_pair o ++ ["}"].
Definition write_json (objs : list jobj) : str := "[" :: w_items w_object objs ++ ["]"].
Definition valid (v : jval) : Prop := match v with JNumber n => number_text n | _ => True end.

Lemma escape_ok : forall v, body_text v (escape v).
Proof.
  induction v as [|c v IH]; [constructor|]. unfold escape. cbn [flat_map]. destruct (Ascii.eqb_spec c """") as [->|N1]; [cbn [orb app]; apply body_escape; [cbn; auto|exact IH]|].
  destruct (Ascii.eqb_spec c "\") as [->|N2]; cbn [orb app]; [apply body_escape; [cbn; auto|exact IH]|apply body_plain; auto].
Qed.
Lemma w_string_ok : forall v, string_text v (w_string v). Proof. intros v. exists (escape v). split; [reflexivity|apply escape_ok]. Qed.
Lemma w_items_ok : forall A (item : A -> str -> Prop) w l, Forall (fun x => item x (w x)) l -> items_text item l (w_items w l).
Proof.
  intros A item w l H. assert (G : forall l, Forall (fun x => item x (w x)) l -> more_text item l (flat_map (fun y => "," :: w y) l)).
  { clear. intros l H. induction H as [|x l HX _ IH]; cbn [flat_map]; [apply more_nil; constructor|]. exact (more_cons item [] [] x (w x) l _ (Forall_nil _) (Forall_nil _) HX IH). }
  destruct H as [|x l HX HL]; cbn [w_items]; [apply items_nil; constructor|]. exact (items_cons item [] x (w x) l _ (Forall_nil _) HX (G l HL)).
Qed.
Lemma w_pair_ok : forall p, valid (snd p) -> pair_text p (w_pair p).
Proof.
  intros [k v] H. exists (w_string k), [], [], (w_value v). split; [reflexivity|]. split; [apply w_string_ok|]. split; [constructor|]. split; [constructor|].
  destruct v; cbn [snd value_text w_value valid] in *; auto. apply w_string_ok.
Qed.
Theorem C25_write : forall objs, Forall (Forall (fun p => valid (snd p))) objs -> json_text objs (write_json objs).
Proof.
  intros objs H. exists [], (w_items w_object objs). split; [reflexivity|]. split; [constructor|]. apply w_items_ok. eapply Forall_impl; [|exact H]. intros o HO. exists (w_items w_pair o). split; [reflexivity|].
  apply w_items_ok. eapply Forall_impl; [|exact HO]. intros p HP. apply w_pair_ok. exact HP.
Qed.
Print Assumptions C25_write.

Lemma one_digit : forall c, isdigit c = true -> number_text [c].
Proof. intros c H. exists [], [c], [], []. split; [reflexivity|]. split; [auto|]. split; [split; [discriminate|auto]|]. auto. Qed.
Ltac valid_objs := repeat first [apply Forall_nil | apply Forall_cons; [|] | exact I | apply one_digit; reflexivity | cbn [snd valid]].

(** ** A table *)
Definition exJ : list jobj :=
  [[(L "n", JNumber (L "1")); (L "s", JString (L "a ""q"" \")); (L "b", JBool true)];
   [(L "b", JNull); (L "n", JNumber (L "2"))];
   [(L "s", JString (L "x"))]].
Example C25_exJ : table exJ /\ json_text exJ (write_json exJ).
Proof.
  split; [|apply C25_write; unfold exJ; valid_objs].
  unfold table. cbn [hd exJ]. unfold exJ. repeat (apply Forall_cons; [split; [discriminate|]; split; [cbn; repeat constructor; cbn; intuition discriminate|intros x; cbn; tauto]|]). constructor.
Qed.
Example C25_computed :
  match LoadJSON Zdnum 200 (L "f") (write_json exJ) with
  | Ok d => ds_rows d = 3 /\ map c_int (ds_cols d) = [[1; 2; 0]%Z; []; []] /\ map c_mask (ds_cols d) = [[false; false; true]; [false; true; false]; [false; true; true]]
  | _ => False
  end /\
  LoadJSON Zdnum 200 (L "f") (L " [ {""a"" : [1]} ]") = Throw DataErr /\ LoadJSON Zdnum 200 (L "f") (L "[{""a"":1}") = Throw DataErr.
Proof. vm_compute. repeat split. Qed.

(** ** A key that first appears in a later object: its value is shown in the first row *)
Definition lateJ : list jobj := [[(L "a", JNumber (L "1"))]; [(L "a", JNumber (L "2")); (L "b", JNumber (L "7"))]].
Theorem C25_late_key_refuted : json_text lateJ (write_json lateJ) /\ lookup (L "b") (nth 0 lateJ []) = None /\ lookup (L "b") (nth 1 lateJ []) = Some (JNumber (L "7")) /\
  exists fuel ds col, LoadJSON Zdnum fuel (L "f") (write_json lateJ) = Ok ds /\ nth_error (ds_cols ds) 1 = Some col /\ c_name col = L "b" /\
    col_string Zdnum col 0 = Ok (L "7") /\ col_missing col 1 = true.
Proof.
  split; [apply C25_write; unfold lateJ; valid_objs|]. split; [reflexivity|]. split; [reflexivity|]. exists 100. eexists. eexists. split; [vm_compute; reflexivity|]. split; [reflexivity|]. repeat split.
Qed.
(** ** An object without keys gives no row *)
Definition emptyJ : list jobj := [[(L "a", JNumber (L "1"))]; []; [(L "a", JNumber (L "3"))]].
Theorem C25_empty_object_refuted : json_text emptyJ (write_json emptyJ) /\ length emptyJ = 3 /\
  exists fuel ds, LoadJSON Zdnum fuel (L "f") (write_json emptyJ) = Ok ds /\ ds_rows ds = 2.
Proof. split; [apply C25_write; unfold emptyJ; valid_objs|]. split; [reflexivity|]. exists 100. eexists. split; [vm_compute; reflexivity|reflexivity]. Qed.
(** ** A key that appears twice in an object gives two rows *)
Definition dupJ : list jobj := [[(L "a", JNumber (L "1")); (L "a", JNumber (L "2"))]].
Theorem C25_duplicate_key_refuted : json_text dupJ (write_json dupJ) /\ length dupJ = 1 /\
  exists fuel ds, LoadJSON Zdnum fuel (L "f") (write_json dupJ) = Ok ds /\ ds_rows ds = 2.
Proof. split; [apply C25_write; unfold dupJ; valid_objs|]. split; [reflexivity|]. exists 100. eexists. split; [vm_compute; reflexivity|reflexivity]. Qed.
(** ** Unicode escapes are not decoded: "A" written as an escape loads as "u0041" *)
Theorem C25_unicode_refuted : exists fuel ds col, LoadJSON Zdnum fuel (L "f") (L "[{""a"":""\" ++ L "u0041""}]") = Ok ds /\ ds_cols ds = [col] /\ col_string Zdnum col 0 = Ok (L "u0041").
Proof. exists 100. eexists. eexists. split; [vm_compute; reflexivity|]. split; reflexivity. Qed.
(** ** Commas may be missing or doubled up to one in front: malformed arrays are accepted *)
Theorem C25_lenient : exists fuel ds, LoadJSON Zdnum fuel (L "f") (L "[,{,""a"":1 ""b"":2}{""a"":3}]garbage") = Ok ds /\ ds_rows ds = 2 /\ ds_names ds = [L "a"; L "b"].
Proof. exists 100. eexists. split; [vm_compute; reflexivity|]. split; reflexivity. Qed.
Print Assumptions C25_late_key_refuted.
Print Assumptions C25_empty_object_refuted.
Print Assumptions C25_duplicate_key_refuted.
Print Assumptions C25_unicode_refuted.
Print Assumptions C25_lenient.
