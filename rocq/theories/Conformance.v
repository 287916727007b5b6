(** The unit tests of the parser replayed on the model; generated by
    tools/gen_conformance.py (no manual edits).  These are tests of the model's
    faithfulness, not properties. *)

From Coq Require Import String List Bool Arith Ascii.
From Verif Require Import Base Peresil Token Tokenizer.
From Verif Require Import Schema Value Nt Grammar Table Apportion Lib.
Import ListNotations.
Local Open Scope string_scope.
Local Open Scope nat_scope.

Scheme Boolean Equality for perror.

(** Access paths into a value: field, enum variant, [as_x().unwrap()], element,
    [unwrap()] of an option, component of a pair.  [Attributed] derefs to its value, src/ast.rs:1311-1314. *)
Inductive pop : Type := PF (f : string) | PV (v : string) | PA (v : string) | PI (i : nat) | PS | P1 | P2.

Definition is_upper (c : ascii) : bool :=
  (65 <=? nat_of_ascii c) && (nat_of_ascii c <=? 90).
Definition lower (c : ascii) : ascii :=
  if is_upper c then ascii_of_nat (nat_of_ascii c + 32) else c.

(** fuzzy-pickles-derive/src/lib.rs:34-47. *)
Fixpoint snake (s : string) : string :=
  match s with
  | EmptyString => EmptyString
  | String c r =>
      if is_upper c then String "_" (String (lower c) (snake r)) else String c (snake r)
  end.

Definition deref (v : val) : val :=
  match get_field "value" v with
  | Some x => match v with VNode k _ => if prefix "Attributed<" k then x else v | _ => v end
  | None => v
  end.

Definition step (o : pop) (v : val) : option val :=
  match o with
  | PF f => match get_field f v with Some x => Some x | None => get_field f (deref v) end
  | PV k => match v with
            | VVar _ k' p => if String.eqb k k' then Some p else None
            | VSome x => if String.eqb k "Some" then Some x else None
            | _ => None
            end
  | PA k => match deref v with
            | VVar _ k' p => if String.eqb ("_" ++ k) (snake k') then Some p else None
            | _ => None
            end
  | PI i => match v with VList l => nth_error l i | _ => None end
  | PS => match v with VSome x => Some x | _ => None end
  | P1 => match v with VPair x _ => Some x | _ => None end
  | P2 => match v with VPair _ y => Some y | _ => None end
  end.

Fixpoint walk (p : list pop) (v : val) : option val :=
  match p with
  | [] => Some v
  | o :: p' => match step o v with Some x => walk p' x | None => None end
  end.

Inductive check : Type :=
| CParses
| CExt (p : list pop) (e : extent)
| CLen (p : list pop) (n : nat)
| CIs (p : list pop) (what : string) (expected : bool)
| CErrAt (n : nat)
| CErrHas (e : perror).

(** src/parser/test_utils.rs [parse_full]. *)
Definition parse_full (x : g) (s : string) : progress point val (list perror) :=
  match tokenize ascii_xid (str s) with
  | TokOk ts =>
      let (_, toks) := partition_tokens ts [] in
      let (pm, r) := run table toks (parse_fuel (length toks)) x []
                       (new_master pt_zero Unambiguous) pt_zero in
      snd (finish pt_lt pt_zero pm r)
  | _ => Abort Panicked
  end.

Definition same_ext (a b : extent) : bool := (fst a =? fst b) && (snd a =? snd b).

Definition is_what (what : string) (v : val) : bool :=
  if String.eqb what "some" then match v with VSome _ => true | _ => false end
  else if String.eqb what "none" then match v with VNone => true | _ => false end
  else if String.eqb what "empty" then match v with VList [] => true | _ => false end
  else match deref v with
       | VVar _ k _ => String.eqb ("_" ++ what) (snake k)
       | _ => false
       end.

Definition check_one (r : progress point val (list perror)) (c : check) : bool :=
  match c, r with
  | CParses, Success _ _ => true
  | CExt p e, Success _ v =>
      match walk p v with
      | Some x => match extent_of x with Some e' => same_ext e e' | None => false end
      | None => false
      end
  | CLen p n, Success _ v => match walk p v with Some (VList l) => length l =? n | _ => false end
  | CIs p what b, Success _ v =>
      match walk p v with Some x => Bool.eqb (is_what what x) b | None => false end
  | CErrAt n, Failure p _ => off p =? n
  | CErrHas e, Failure _ es => existsb (perror_beq e) es
  | _, _ => false
  end.

Inductive test : Type := T (x : g) (s : string) (cs : list check).

Definition passes (t : test) : bool :=
  match t with T x s cs => let r := parse_full x s in forallb (check_one r) cs end.

Definition tests : list test :=
  [
    (* src/parser/mod.rs:2621 parse_use *)
    T (GNT N_p_use) "use foo::Bar;"
      [CExt [] (0, 13)];
    (* src/parser/mod.rs:2627 parse_use_public *)
    T (GNT N_p_use) "pub use foo::Bar;"
      [CExt [] (0, 17)];
    (* src/parser/mod.rs:2633 parse_use_glob *)
    T (GNT N_p_use) "use foo::*;"
      [CExt [] (0, 11)];
    (* src/parser/mod.rs:2639 parse_use_with_multi *)
    T (GNT N_p_use) "use foo::{Bar, Baz};"
      [CExt [] (0, 20)];
    (* src/parser/mod.rs:2645 parse_use_no_path *)
    T (GNT N_p_use) "use {Bar, Baz};"
      [CExt [] (0, 15)];
    (* src/parser/mod.rs:2651 parse_use_absolute_path *)
    T (GNT N_p_use) "use ::{Bar, Baz};"
      [CExt [] (0, 17)];
    (* src/parser/mod.rs:2657 parse_use_rename *)
    T (GNT N_p_use) "use foo as bar;"
      [CExt [] (0, 15)];
    (* src/parser/mod.rs:2663 parse_use_with_multi_rename *)
    T (GNT N_p_use) "use foo::{bar as a, baz as b};"
      [CExt [] (0, 30)];
    (* src/parser/mod.rs:2669 parse_use_with_nested *)
    T (GNT N_p_use) "use foo::{self, inner::{self, Type}};"
      [CExt [] (0, 37)];
    (* src/parser/mod.rs:2675 parse_use_with_crate *)
    T (GNT N_p_use) "use crate::foo;"
      [CExt [] (0, 15)];
    (* src/parser/mod.rs:2681 parse_use_all_space *)
    T (GNT N_p_use) "use foo :: { bar as a , baz as b } ;"
      [CExt [] (0, 36)];
    (* src/parser/mod.rs:2687 item_mod_multiple *)
    T (GNT N_item) "mod foo { use super::*; }"
      [CExt [] (0, 25)];
    (* src/parser/mod.rs:2693 item_macro_call_with_parens *)
    T (GNT N_item) "foo!();"
      [CExt [] (0, 7)];
    (* src/parser/mod.rs:2699 item_macro_call_with_square_brackets *)
    T (GNT N_item) "foo![];"
      [CExt [] (0, 7)];
    (* src/parser/mod.rs:2705 item_macro_call_with_curly_braces *)
    T (GNT N_item) "foo! { }"
      [CExt [] (0, 8)];
    (* src/parser/mod.rs:2711 item_macro_call_with_ident *)
    T (GNT N_item) "macro_rules! name { }"
      [CExt [] (0, 21)];
    (* src/parser/mod.rs:2717 item_macro_call_with_path *)
    T (GNT N_item) "foo::bar!();"
      [CExt [] (0, 12)];
    (* src/parser/mod.rs:2723 item_macro_call_all_space *)
    T (GNT N_item) "foo :: bar ! baz [ ] ;"
      [CExt [] (0, 22)];
    (* src/parser/mod.rs:2729 item_mod *)
    T (GNT N_module) "mod foo { }"
      [CExt [] (0, 11)];
    (* src/parser/mod.rs:2735 item_mod_public *)
    T (GNT N_module) "pub mod foo;"
      [CExt [] (0, 12)];
    (* src/parser/mod.rs:2741 item_mod_another_file *)
    T (GNT N_module) "mod foo;"
      [CExt [] (0, 8)];
    (* src/parser/mod.rs:2747 item_trait *)
    T (GNT N_item) "trait Foo {}"
      [CExt [] (0, 12)];
    (* src/parser/mod.rs:2753 item_auto_trait *)
    T (GNT N_item) "auto trait Foo {}"
      [CExt [] (0, 17)];
    (* src/parser/mod.rs:2759 item_trait_public *)
    T (GNT N_item) "pub trait Foo {}"
      [CExt [] (0, 16)];
    (* src/parser/mod.rs:2765 item_trait_unsafe *)
    T (GNT N_item) "unsafe trait Foo {}"
      [CExt [] (0, 19)];
    (* src/parser/mod.rs:2771 item_trait_with_generics *)
    T (GNT N_item) "trait Foo<T> {}"
      [CExt [] (0, 15)];
    (* src/parser/mod.rs:2777 item_trait_with_members *)
    T (GNT N_item) "trait Foo { fn bar(&self) -> u8; }"
      [CExt [] (0, 34)];
    (* src/parser/mod.rs:2783 item_trait_with_members_with_patterns *)
    T (GNT N_item) "trait Foo { fn bar(&self, &a: &u8) -> u8; }"
      [CExt [] (0, 43)];
    (* src/parser/mod.rs:2789 item_trait_with_members_with_body *)
    T (GNT N_item) "trait Foo { fn bar(&self) -> u8 { 42 } }"
      [CExt [] (0, 40)];
    (* src/parser/mod.rs:2795 item_trait_with_unnamed_parameters *)
    T (GNT N_item) "trait Foo { fn bar(&self, u8); }"
      [CExt [] (0, 32)];
    (* src/parser/mod.rs:2801 item_trait_with_qualified_function *)
    T (GNT N_item) "trait Foo { const unsafe extern ""C"" fn bar(); }"
      [CExt [] (0, 47)];
    (* src/parser/mod.rs:2807 item_trait_with_associated_type *)
    T (GNT N_item) "trait Foo { type Bar; }"
      [CExt [] (0, 23)];
    (* src/parser/mod.rs:2813 item_trait_with_associated_type_with_bounds *)
    T (GNT N_item) "trait Foo { type Bar: Baz; }"
      [CExt [] (0, 28)];
    (* src/parser/mod.rs:2819 item_trait_with_associated_type_with_default *)
    T (GNT N_item) "trait Foo { type Bar = (); }"
      [CExt [] (0, 28)];
    (* src/parser/mod.rs:2825 item_trait_with_associated_type_with_bounds_and_default *)
    T (GNT N_item) "trait Foo { type Bar: Baz = (); }"
      [CExt [] (0, 33)];
    (* src/parser/mod.rs:2831 item_trait_with_associated_const *)
    T (GNT N_item) "trait Foo { const Bar: u8; }"
      [CExt [] (0, 28)];
    (* src/parser/mod.rs:2837 item_trait_with_associated_const_with_default *)
    T (GNT N_item) "trait Foo { const Bar: u8 = 42; }"
      [CExt [] (0, 33)];
    (* src/parser/mod.rs:2843 item_trait_with_supertraits *)
    T (GNT N_item) "trait Foo: Bar + Baz {}"
      [CExt [] (0, 23)];
    (* src/parser/mod.rs:2849 item_trait_with_where_clause *)
    T (GNT N_item) "trait Foo where A: B {}"
      [CExt [] (0, 23)];
    (* src/parser/mod.rs:2855 item_trait_with_macro *)
    T (GNT N_item) "trait Foo { bar!{} }"
      [CExt [] (0, 20)];
    (* src/parser/mod.rs:2861 item_trait_all_space *)
    T (GNT N_item) "trait Foo : Bar { type A : B ; fn a ( a : u8) -> u8 { a } }"
      [CExt [] (0, 59)];
    (* src/parser/mod.rs:2867 item_type_alias *)
    T (GNT N_item) "type Foo<T> = Bar<T, u8>;"
      [CExt [] (0, 25)];
    (* src/parser/mod.rs:2873 item_type_alias_public *)
    T (GNT N_item) "pub type Foo<T> = Bar<T, u8>;"
      [CExt [] (0, 29)];
    (* src/parser/mod.rs:2879 item_type_alias_with_trait_bounds *)
    T (GNT N_item) "type X<T: Foo> where T: Bar = Option<T>;"
      [CExt [] (0, 40)];
    (* src/parser/mod.rs:2885 item_const *)
    T (GNT N_item) "const FOO: &'static str = ""hi"";"
      [CExt [] (0, 31)];
    (* src/parser/mod.rs:2891 item_const_public *)
    T (GNT N_item) "pub const FOO: u8 = 42;"
      [CExt [] (0, 23)];
    (* src/parser/mod.rs:2897 item_static *)
    T (GNT N_item) "static FOO: &'static str = ""hi"";"
      [CExt [] (0, 32)];
    (* src/parser/mod.rs:2903 item_static_mut *)
    T (GNT N_item) "static mut FOO: &'static str = ""hi"";"
      [CExt [] (0, 36)];
    (* src/parser/mod.rs:2909 item_static_public *)
    T (GNT N_item) "pub static FOO: u8 = 42;"
      [CExt [] (0, 24)];
    (* src/parser/mod.rs:2915 item_extern_crate *)
    T (GNT N_item) "extern crate foo;"
      [CExt [] (0, 17)];
    (* src/parser/mod.rs:2921 item_extern_crate_public *)
    T (GNT N_item) "pub extern crate foo;"
      [CExt [] (0, 21)];
    (* src/parser/mod.rs:2927 item_extern_crate_rename *)
    T (GNT N_item) "extern crate foo as bar;"
      [CExt [] (0, 24)];
    (* src/parser/mod.rs:2933 item_extern_block *)
    T (GNT N_item) "extern {}"
      [CExt [] (0, 9)];
    (* src/parser/mod.rs:2939 item_extern_block_with_abi *)
    T (GNT N_item) "extern ""C"" {}"
      [CExt [] (0, 13)];
    (* src/parser/mod.rs:2945 item_extern_block_with_fn *)
    T (GNT N_item) "extern { fn foo(bar: u8) -> bool; }"
      [CExt [] (0, 35)];
    (* src/parser/mod.rs:2951 item_extern_block_with_variadic_fn *)
    T (GNT N_item) "extern { fn foo(bar: u8, ...) -> bool; }"
      [CExt [] (0, 40)];
    (* src/parser/mod.rs:2957 item_extern_block_with_fn_and_generics *)
    T (GNT N_item) "extern { fn foo<A, B>(bar: A) -> B; }"
      [CExt [] (0, 37)];
    (* src/parser/mod.rs:2963 item_extern_block_with_attribute *)
    T (GNT N_item) "extern { #[wow] static A: u8; }"
      [CExt [] (0, 31)];
    (* src/parser/mod.rs:2969 item_extern_block_with_static *)
    T (GNT N_item) "extern { static FOO: u32; }"
      [CExt [] (0, 27)];
    (* src/parser/mod.rs:2975 item_extern_block_with_static_and_qualifiers *)
    T (GNT N_item) "extern { pub static mut FOO: u32; }"
      [CExt [] (0, 35)];
    (* src/parser/mod.rs:2981 item_extern_block_with_type *)
    T (GNT N_item) "extern { type opaque; }"
      [CExt [] (0, 23)];
    (* src/parser/mod.rs:2987 item_extern_block_with_type_and_qualifiers *)
    T (GNT N_item) "extern { pub type opaque; }"
      [CExt [] (0, 27)];
    (* src/parser/mod.rs:2993 item_attribute_containing *)
    T (GNT N_item) "#![feature(sweet)]"
      [CExt [] (0, 18)];
    (* src/parser/mod.rs:2999 item_attribute_containing_doc_comment_line *)
    T (GNT N_item) "//! Hello"
      [CExt [] (0, 9)];
    (* src/parser/mod.rs:3005 item_attribute_containing_doc_comment_block *)
    T (GNT N_item) "/*! Hello */"
      [CExt [] (0, 12)];
    (* src/parser/mod.rs:3011 inherent_impl *)
    T (GNT N_p_impl) "impl Bar {}"
      [CExt [] (0, 11)];
    (* src/parser/mod.rs:3017 inherent_impl_with_function *)
    T (GNT N_p_impl) "impl Bar { fn foo() {} }"
      [CExt [] (0, 24)];
    (* src/parser/mod.rs:3023 inherent_impl_with_const_function *)
    T (GNT N_p_impl) "impl Bar { const fn foo() {} }"
      [CExt [] (0, 30)];
    (* src/parser/mod.rs:3029 inherent_impl_with_default_function *)
    T (GNT N_p_impl) "impl Bar { default fn foo() {} }"
      [CExt [] (0, 32)];
    (* src/parser/mod.rs:3035 inherent_impl_with_unsafe_function *)
    T (GNT N_p_impl) "impl Bar { unsafe fn foo() {} }"
      [CExt [] (0, 31)];
    (* src/parser/mod.rs:3041 inherent_impl_with_extern_function *)
    T (GNT N_p_impl) "impl Bar { extern fn foo() {} }"
      [CExt [] (0, 31)];
    (* src/parser/mod.rs:3047 inherent_impl_with_default_const_unsafe_function *)
    T (GNT N_p_impl) "impl Bar { default const unsafe fn foo() {} }"
      [CExt [] (0, 45)];
    (* src/parser/mod.rs:3053 inherent_impl_with_default_unsafe_extern_function *)
    T (GNT N_p_impl) "impl Bar { default unsafe extern fn foo() {} }"
      [CExt [] (0, 46)];
    (* src/parser/mod.rs:3059 impl_with_trait *)
    T (GNT N_p_impl) "impl Foo for Bar {}"
      [CExt [] (0, 19)];
    (* src/parser/mod.rs:3065 impl_with_negative_trait *)
    T (GNT N_p_impl) "impl !Foo for Bar {}"
      [CExt [] (0, 20)];
    (* src/parser/mod.rs:3071 impl_trait_with_wildcard_type *)
    T (GNT N_p_impl) "impl Foo for .. {}"
      [CExt [] (0, 18)];
    (* src/parser/mod.rs:3077 impl_with_generics *)
    T (GNT N_p_impl) "impl<'a, T> Foo<'a, T> for Bar<'a, T> {}"
      [CExt [] (0, 40)];
    (* src/parser/mod.rs:3083 impl_with_generics_no_space *)
    T (GNT N_p_impl) "impl<'a,T>Foo<'a,T>for Bar<'a,T>{}"
      [CExt [] (0, 34)];
    (* src/parser/mod.rs:3089 impl_with_trait_bounds *)
    T (GNT N_p_impl) "impl<T> Foo for Bar<T> where T: Quux {}"
      [CExt [] (0, 39)];
    (* src/parser/mod.rs:3095 impl_with_attribute *)
    T (GNT N_p_impl) "impl Foo { #[attribute] fn bar() {} }"
      [CExt [] (0, 37)];
    (* src/parser/mod.rs:3101 impl_with_attributes *)
    T (GNT N_p_impl) "impl Foo { #[a] #[b] fn bar() {} }"
      [CExt [] (0, 34)];
    (* src/parser/mod.rs:3107 impl_with_associated_type *)
    T (GNT N_p_impl) "impl Foo { type A = B; }"
      [CExt [] (0, 24)];
    (* src/parser/mod.rs:3113 impl_with_associated_const *)
    T (GNT N_p_impl) "impl Foo { const A: i32 = 42; }"
      [CExt [] (0, 31)];
    (* src/parser/mod.rs:3119 impl_with_public_associated_const *)
    T (GNT N_p_impl) "impl Foo { pub(crate) const A: i32 = 42; }"
      [CExt [] (0, 42)];
    (* src/parser/mod.rs:3125 impl_with_unsafe *)
    T (GNT N_p_impl) "unsafe impl Foo {}"
      [CExt [] (0, 18)];
    (* src/parser/mod.rs:3131 impl_with_macro_call *)
    T (GNT N_p_impl) "impl Foo { bar!(); }"
      [CExt [] (0, 20)];
    (* src/parser/mod.rs:3137 enum_with_trailing_stuff *)
    T (GNT N_p_enum) "enum A {} impl Foo for Bar {}"
      [CExt [] (0, 9)];
    (* src/parser/mod.rs:3143 enum_with_generic_types *)
    T (GNT N_p_enum) "enum A { Foo(Vec<u8>) }"
      [CExt [] (0, 23)];
    (* src/parser/mod.rs:3149 enum_with_generic_declarations *)
    T (GNT N_p_enum) "enum A<T> { Foo(Vec<T>) }"
      [CExt [] (0, 25)];
    (* src/parser/mod.rs:3155 enum_with_struct_variant *)
    T (GNT N_p_enum) "enum A { Foo { a: u8 } }"
      [CExt [] (0, 24)];
    (* src/parser/mod.rs:3161 enum_with_attribute *)
    T (GNT N_p_enum) "enum Foo { #[attr] A(u8)}"
      [CExt [] (0, 25)];
    (* src/parser/mod.rs:3167 enum_with_attribute_on_value *)
    T (GNT N_p_enum) "enum Foo { A(#[attr] u8) }"
      [CExt [] (0, 26)];
    (* src/parser/mod.rs:3173 enum_with_discriminant *)
    T (GNT N_p_enum) "enum Foo { A = 1, B = 2 }"
      [CExt [] (0, 25)];
    (* src/parser/mod.rs:3179 enum_with_where_clause *)
    T (GNT N_p_enum) "enum Foo<A> where A: Bar { Z }"
      [CExt [] (0, 30)];
    (* src/parser/mod.rs:3185 enum_public *)
    T (GNT N_p_enum) "pub enum A {}"
      [CExt [] (0, 13)];
    (* src/parser/mod.rs:3191 fn_with_public_modifier *)
    T (GNT N_function_header) "pub fn foo()"
      [CExt [] (0, 12)];
    (* src/parser/mod.rs:3197 fn_with_const_modifier *)
    T (GNT N_function_header) "const fn foo()"
      [CExt [] (0, 14)];
    (* src/parser/mod.rs:3203 fn_with_extern_modifier *)
    T (GNT N_function_header) "extern fn foo()"
      [CExt [] (0, 15)];
    (* src/parser/mod.rs:3209 fn_with_extern_modifier_and_abi *)
    T (GNT N_function_header) "extern ""C"" fn foo()"
      [CExt [] (0, 19)];
    (* src/parser/mod.rs:3215 fn_with_async_modifier *)
    T (GNT N_function_header) "async fn foo()"
      [CExt [] (0, 14)];
    (* src/parser/mod.rs:3221 fn_with_self_type_reference *)
    T (GNT N_function_header) "fn foo(&self)"
      [CExt [] (0, 13)];
    (* src/parser/mod.rs:3227 fn_with_self_type_value *)
    T (GNT N_function_header) "fn foo(self)"
      [CExt [] (0, 12)];
    (* src/parser/mod.rs:3233 fn_with_self_type_value_mut *)
    T (GNT N_function_header) "fn foo(mut self)"
      [CExt [] (0, 16)];
    (* src/parser/mod.rs:3239 fn_with_self_type_reference_mut *)
    T (GNT N_function_header) "fn foo(&mut self)"
      [CExt [] (0, 17)];
    (* src/parser/mod.rs:3245 fn_with_self_type_with_lifetime *)
    T (GNT N_function_header) "fn foo<'a>(&'a self)"
      [CExt [] (0, 20)];
    (* src/parser/mod.rs:3251 fn_with_self_type_and_regular *)
    T (GNT N_function_header) "fn foo(&self, a: u8)"
      [CExt [] (0, 20)];
    (* src/parser/mod.rs:3257 fn_with_self_type_explicit_type *)
    T (GNT N_function_header) "fn foo(self: &mut Self)"
      [CExt [] (0, 23)];
    (* src/parser/mod.rs:3263 fn_with_self_type_explicit_type_mutable *)
    T (GNT N_function_header) "fn foo(mut self: &mut Self)"
      [CExt [] (0, 27)];
    (* src/parser/mod.rs:3269 fn_with_argument *)
    T (GNT N_function_header) "fn foo(a: u8)"
      [CExt [] (0, 13)];
    (* src/parser/mod.rs:3275 fn_with_arguments_all_space *)
    T (GNT N_function_header) "fn foo ( a : u8 )"
      [CExt [] (0, 17)];
    (* src/parser/mod.rs:3281 fn_with_argument_with_generic *)
    T (GNT N_function_header) "fn foo(a: Vec<u8>)"
      [CExt [] (0, 18)];
    (* src/parser/mod.rs:3287 fn_with_arguments *)
    T (GNT N_function_header) "fn foo(a: u8, b: u8)"
      [CExt [] (0, 20)];
    (* src/parser/mod.rs:3293 fn_with_arguments_with_patterns *)
    T (GNT N_function_header) "fn foo(&a: &u8)"
      [CExt [] (0, 15)];
    (* src/parser/mod.rs:3299 fn_with_return_type *)
    T (GNT N_function_header) "fn foo() -> bool"
      [CExt [] (0, 16)];
    (* src/parser/mod.rs:3305 fn_with_generics *)
    T (GNT N_function_header) "fn foo<A, B>()"
      [CExt [] (0, 14)];
    (* src/parser/mod.rs:3311 fn_with_lifetimes *)
    T (GNT N_function_header) "fn foo<'a, 'b>()"
      [CExt [] (0, 16)];
    (* src/parser/mod.rs:3317 fn_with_lifetimes_and_generics *)
    T (GNT N_function_header) "fn foo<'a, T>()"
      [CExt [] (0, 15)];
    (* src/parser/mod.rs:3323 fn_with_whitespace_before_arguments *)
    T (GNT N_function_header) "fn foo () -> ()"
      [CExt [] (0, 15)];
    (* src/parser/mod.rs:3329 fn_with_whitespace_before_generics *)
    T (GNT N_function_header) "fn foo <'a, T>() -> ()"
      [CExt [] (0, 22)];
    (* src/parser/mod.rs:3335 fn_with_unsafe_qualifier *)
    T (GNT N_function_header) "unsafe fn foo()"
      [CExt [] (0, 15)];
    (* src/parser/mod.rs:3341 block_with_multiple_implicit_statement_macro_calls *)
    T (GNT N_block) "{ a! {} b! {} }"
      [CExt [] (0, 15)];
    (* src/parser/mod.rs:3347 block_promotes_implicit_statement_to_expression *)
    T (GNT N_block) "{ if a {} }"
      [CIs [PF "statements"] "empty" true; CExt [PF "expression"; PS] (2, 9)];
    (* src/parser/mod.rs:3354 block_with_multiple_empty_statements *)
    T (GNT N_block) "{ ; ; ; }"
      [CExt [] (0, 9)];
    (* src/parser/mod.rs:3360 statement_match_no_semicolon *)
    T (GNT N_statement) "match a { _ => () }"
      [CExt [PA "expression"] (0, 19)];
    (* src/parser/mod.rs:3366 statement_use *)
    T (GNT N_statement) "use foo::Bar;"
      [CExt [] (0, 13)];
    (* src/parser/mod.rs:3372 statement_any_item *)
    T (GNT N_statement) "struct Foo {}"
      [CExt [] (0, 13)];
    (* src/parser/mod.rs:3378 statement_union *)
    T (GNT N_statement) "union union { union: union }"
      [CExt [] (0, 28)];
    (* src/parser/mod.rs:3385 statement_braced_expression_followed_by_method *)
    T (GNT N_statement) "match 1 { _ => 1u8 }.count_ones()"
      [CExt [] (0, 33)];
    (* src/parser/mod.rs:3391 pathed_ident_with_leading_separator *)
    T (GNT N_pathed_ident) "::foo"
      [CExt [] (0, 5)];
    (* src/parser/mod.rs:3397 pathed_ident_with_crate *)
    T (GNT N_pathed_ident) "crate::foo"
      [CExt [] (0, 10)];
    (* src/parser/mod.rs:3403 pathed_ident_with_turbofish *)
    T (GNT N_pathed_ident) "foo::<Vec<u8>>"
      [CExt [] (0, 14)];
    (* src/parser/mod.rs:3409 pathed_ident_with_turbofish_with_lifetime *)
    T (GNT N_pathed_ident) "StructWithLifetime::<'a, u8>"
      [CExt [] (0, 28)];
    (* src/parser/mod.rs:3415 pathed_ident_all_space *)
    T (GNT N_pathed_ident) "foo :: < Vec < u8 > , Option < bool > >"
      [CExt [] (0, 39)];
    (* src/parser/mod.rs:3421 number_decimal_cannot_start_with_underscore *)
    T (GNT N_number_literal) "_123"
      [CErrAt 0; CErrHas ExpectedNumber];
    (* src/parser/mod.rs:3429 number_with_exponent *)
    T (GNT N_number_literal) "1e2"
      [CExt [] (0, 3)];
    (* src/parser/mod.rs:3435 number_with_prefix_and_exponent *)
    T (GNT N_number_literal) "0x1e2"
      [CExt [] (0, 5)];
    (* src/parser/mod.rs:3441 number_with_fractional *)
    T (GNT N_number_literal) "1.2"
      [CExt [] (0, 3)];
    (* src/parser/mod.rs:3447 number_with_fractional_with_suffix *)
    T (GNT N_number_literal) "1.2f32"
      [CExt [] (0, 6)];
    (* src/parser/mod.rs:3453 number_with_prefix_and_fractional *)
    T (GNT N_number_literal) "0x1.2"
      [CExt [] (0, 5)];
    (* src/parser/mod.rs:3459 number_with_prefix_exponent_and_fractional *)
    T (GNT N_number_literal) "0o7.3e9"
      [CExt [] (0, 7)];
    (* src/parser/mod.rs:3465 number_with_prefix_can_have_underscore_after_prefix *)
    T (GNT N_number_literal) "0x_123"
      [CExt [] (0, 6)];
    (* src/parser/mod.rs:3471 number_binary_can_have_suffix *)
    T (GNT N_number_literal) "0b111u8"
      [CExt [] (0, 7)];
    (* src/parser/mod.rs:3477 number_decimal_can_have_suffix *)
    T (GNT N_number_literal) "123i16"
      [CExt [] (0, 6)];
    (* src/parser/mod.rs:3483 number_hexadecimal_can_have_suffix *)
    T (GNT N_number_literal) "0xBEEF__u32"
      [CExt [] (0, 11)];
    (* src/parser/mod.rs:3489 number_octal_can_have_suffix *)
    T (GNT N_number_literal) "0o777_isize"
      [CExt [] (0, 11)];
    (* src/parser/mod.rs:3495 pattern_with_path *)
    T (GNT N_pattern) "foo::Bar::Baz"
      [CExt [] (0, 13)];
    (* src/parser/mod.rs:3501 pattern_with_ref *)
    T (GNT N_pattern) "ref a"
      [CExt [] (0, 5)];
    (* src/parser/mod.rs:3507 pattern_with_tuple *)
    T (GNT N_pattern) "(a, b)"
      [CExt [] (0, 6)];
    (* src/parser/mod.rs:3513 pattern_with_enum_tuple *)
    T (GNT N_pattern) "Baz(a)"
      [CExt [] (0, 6)];
    (* src/parser/mod.rs:3519 pattern_with_tuple_wildcard *)
    T (GNT N_pattern) "(..)"
      [CExt [] (0, 4)];
    (* src/parser/mod.rs:3525 pattern_with_tuple_wildcard_anywhere *)
    T (GNT N_pattern) "(a, .., b)"
      [CExt [] (0, 10)];
    (* src/parser/mod.rs:3531 pattern_with_tuple_all_space *)
    T (GNT N_pattern) "( a , .. , b )"
      [CExt [] (0, 14)];
    (* src/parser/mod.rs:3537 pattern_with_enum_struct *)
    T (GNT N_pattern) "Baz { a: a }"
      [CExt [] (0, 12)];
    (* src/parser/mod.rs:3543 pattern_with_enum_struct_shorthand *)
    T (GNT N_pattern) "Baz { a }"
      [CExt [] (0, 9)];
    (* src/parser/mod.rs:3549 pattern_with_enum_struct_shorthand_with_ref *)
    T (GNT N_pattern) "Baz { ref a }"
      [CExt [] (0, 13)];
    (* src/parser/mod.rs:3555 pattern_with_enum_struct_wildcard *)
    T (GNT N_pattern) "Baz { .. }"
      [CExt [] (0, 10)];
    (* src/parser/mod.rs:3561 pattern_with_byte_literal *)
    T (GNT N_pattern) "b'a'"
      [CExt [] (0, 4)];
    (* src/parser/mod.rs:3567 pattern_with_char_literal *)
    T (GNT N_pattern) "'a'"
      [CExt [] (0, 3)];
    (* src/parser/mod.rs:3573 pattern_with_byte_string_literal *)
    T (GNT N_pattern) "b""hello"""
      [CExt [] (0, 8)];
    (* src/parser/mod.rs:3579 pattern_with_string_literal *)
    T (GNT N_pattern) """hello"""
      [CExt [] (0, 7)];
    (* src/parser/mod.rs:3585 pattern_with_numeric_literal *)
    T (GNT N_pattern) "42"
      [CExt [] (0, 2)];
    (* src/parser/mod.rs:3591 pattern_with_numeric_literal_negative *)
    T (GNT N_pattern) "- 42"
      [CExt [] (0, 4)];
    (* src/parser/mod.rs:3597 pattern_with_slice *)
    T (GNT N_pattern) "[a, b]"
      [CExt [] (0, 6)];
    (* src/parser/mod.rs:3603 pattern_with_slice_and_subslices *)
    T (GNT N_pattern) "[a, b @ ..]"
      [CExt [] (0, 11)];
    (* src/parser/mod.rs:3609 pattern_with_slice_and_modified_subslices *)
    T (GNT N_pattern) "[a, ref mut b @ ..]"
      [CExt [] (0, 19)];
    (* src/parser/mod.rs:3615 pattern_with_reference *)
    T (GNT N_pattern) "&a"
      [CExt [] (0, 2)];
    (* src/parser/mod.rs:3621 pattern_with_reference_mutable *)
    T (GNT N_pattern) "&mut ()"
      [CIs [PF "kind"] "reference" true; CExt [] (0, 7)];
    (* src/parser/mod.rs:3628 pattern_with_named_subpattern *)
    T (GNT N_pattern) "a @ 1"
      [CExt [] (0, 5)];
    (* src/parser/mod.rs:3634 pattern_with_named_subpattern_qualifiers *)
    T (GNT N_pattern) "ref mut a @ 1"
      [CExt [] (0, 13)];
    (* src/parser/mod.rs:3640 pattern_with_numeric_inclusive_range *)
    T (GNT N_pattern) "1 ..= 10"
      [CExt [] (0, 8)];
    (* src/parser/mod.rs:3646 pattern_with_numeric_inclusive_range_negative *)
    T (GNT N_pattern) "-10 ..= -1"
      [CExt [] (0, 10)];
    (* src/parser/mod.rs:3652 pattern_with_character_inclusive_range *)
    T (GNT N_pattern) "'a'..='z'"
      [CExt [] (0, 9)];
    (* src/parser/mod.rs:3658 pattern_with_byte_inclusive_range *)
    T (GNT N_pattern) "b'a'..=b'z'"
      [CExt [] (0, 11)];
    (* src/parser/mod.rs:3664 pattern_with_pathed_ident_inclusive_range *)
    T (GNT N_pattern) "foo::a..=z"
      [CExt [] (0, 10)];
    (* src/parser/mod.rs:3670 pattern_with_legacy_numeric_inclusive_range *)
    T (GNT N_pattern) "1 ... 10"
      [CExt [] (0, 8)];
    (* src/parser/mod.rs:3676 pattern_with_legacy_numeric_inclusive_range_negative *)
    T (GNT N_pattern) "-10 ... -1"
      [CExt [] (0, 10)];
    (* src/parser/mod.rs:3682 pattern_with_legacy_character_inclusive_range *)
    T (GNT N_pattern) "'a'...'z'"
      [CExt [] (0, 9)];
    (* src/parser/mod.rs:3688 pattern_with_legacy_byte_inclusive_range *)
    T (GNT N_pattern) "b'a'...b'z'"
      [CExt [] (0, 11)];
    (* src/parser/mod.rs:3694 pattern_with_legacy_pathed_ident_inclusive_range *)
    T (GNT N_pattern) "foo::a...z"
      [CExt [] (0, 10)];
    (* src/parser/mod.rs:3700 pattern_with_numeric_exclusive_range *)
    T (GNT N_pattern) "1 .. 10"
      [CExt [] (0, 7)];
    (* src/parser/mod.rs:3706 pattern_with_numeric_exclusive_range_negative *)
    T (GNT N_pattern) "-10 .. -1"
      [CExt [] (0, 9)];
    (* src/parser/mod.rs:3712 pattern_with_character_exclusive_range *)
    T (GNT N_pattern) "'a'..'z'"
      [CExt [] (0, 8)];
    (* src/parser/mod.rs:3718 pattern_with_byte_exclusive_range *)
    T (GNT N_pattern) "b'a'..b'z'"
      [CExt [] (0, 10)];
    (* src/parser/mod.rs:3724 pattern_with_pathed_ident_exclusive_range *)
    T (GNT N_pattern) "foo::a..z"
      [CExt [] (0, 9)];
    (* src/parser/mod.rs:3730 pattern_with_macro_call *)
    T (GNT N_pattern) "foo![]"
      [CExt [] (0, 6)];
    (* src/parser/mod.rs:3736 pattern_with_box *)
    T (GNT N_pattern) "box a"
      [CExt [] (0, 5)];
    (* src/parser/mod.rs:3742 type_tuple *)
    T (GNT N_typ) "(u8, u8)"
      [CExt [] (0, 8)];
    (* src/parser/mod.rs:3748 type_tuple_all_space *)
    T (GNT N_typ) "( u8 , u8 )"
      [CExt [] (0, 11)];
    (* src/parser/mod.rs:3754 type_with_generics *)
    T (GNT N_typ) "A<T>"
      [CExt [] (0, 4)];
    (* src/parser/mod.rs:3760 type_with_generics_all_space *)
    T (GNT N_typ) "A < T >"
      [CExt [] (0, 7)];
    (* src/parser/mod.rs:3766 type_dyn_trait *)
    T (GNT N_typ) "dyn Foo"
      [CExt [] (0, 7)];
    (* src/parser/mod.rs:3772 type_impl_trait *)
    T (GNT N_typ) "impl Foo"
      [CExt [] (0, 8)];
    (* src/parser/mod.rs:3778 type_fn_trait *)
    T (GNT N_typ) "Fn(u8) -> u8"
      [CExt [] (0, 12)];
    (* src/parser/mod.rs:3784 type_ref *)
    T (GNT N_typ) "&mut Foo"
      [CExt [] (0, 8)];
    (* src/parser/mod.rs:3790 type_mut_ref *)
    T (GNT N_typ) "&mut Foo"
      [CExt [] (0, 8)];
    (* src/parser/mod.rs:3796 type_mut_ref_with_lifetime *)
    T (GNT N_typ) "&'a mut Foo"
      [CExt [] (0, 11)];
    (* src/parser/mod.rs:3802 type_const_pointer *)
    T (GNT N_typ) "*const Foo"
      [CExt [] (0, 10)];
    (* src/parser/mod.rs:3808 type_mut_pointer *)
    T (GNT N_typ) "*mut Foo"
      [CExt [] (0, 8)];
    (* src/parser/mod.rs:3814 type_uninhabited *)
    T (GNT N_typ) "!"
      [CExt [] (0, 1)];
    (* src/parser/mod.rs:3820 type_slice *)
    T (GNT N_typ) "[u8]"
      [CExt [] (0, 4)];
    (* src/parser/mod.rs:3826 type_array *)
    T (GNT N_typ) "[u8; 42]"
      [CExt [] (0, 8)];
    (* src/parser/mod.rs:3832 type_array_allows_expressions *)
    T (GNT N_typ) "[u8; 1 + 1]"
      [CExt [] (0, 11)];
    (* src/parser/mod.rs:3838 type_fn *)
    T (GNT N_typ) "fn(u8) -> u8"
      [CExt [] (0, 12)];
    (* src/parser/mod.rs:3844 type_fn_with_names *)
    T (GNT N_typ) "fn(a: u8) -> u8"
      [CExt [] (0, 15)];
    (* src/parser/mod.rs:3850 type_fn_with_const *)
    T (GNT N_typ) "const fn()"
      [CExt [] (0, 10)];
    (* src/parser/mod.rs:3856 type_fn_with_unsafe *)
    T (GNT N_typ) "unsafe fn()"
      [CExt [] (0, 11)];
    (* src/parser/mod.rs:3862 type_fn_with_extern *)
    T (GNT N_typ) "extern fn()"
      [CExt [] (0, 11)];
    (* src/parser/mod.rs:3868 type_fn_with_extern_and_abi *)
    T (GNT N_typ) "extern ""C"" fn()"
      [CExt [] (0, 15)];
    (* src/parser/mod.rs:3874 type_fn_with_variadic *)
    T (GNT N_typ) "fn(...)"
      [CExt [] (0, 7)];
    (* src/parser/mod.rs:3880 type_higher_ranked_trait_bounds *)
    T (GNT N_typ) "for <'a> Foo<'a>"
      [CExt [] (0, 16)];
    (* src/parser/mod.rs:3886 type_higher_ranked_trait_bounds_on_functions *)
    T (GNT N_typ) "for <'a> fn(&'a u8)"
      [CExt [] (0, 19)];
    (* src/parser/mod.rs:3892 type_higher_ranked_trait_bounds_on_references *)
    T (GNT N_typ) "for <'a> &'a u8"
      [CExt [] (0, 15)];
    (* src/parser/mod.rs:3898 type_with_path *)
    T (GNT N_typ) "crate::foo::Bar"
      [CExt [] (0, 15)];
    (* src/parser/mod.rs:3904 type_with_additional_named_type *)
    T (GNT N_typ) "Foo + Bar"
      [CExt [] (0, 9)];
    (* src/parser/mod.rs:3910 type_with_additional_lifetimes *)
    T (GNT N_typ) "Foo + 'a"
      [CExt [] (0, 8)];
    (* src/parser/mod.rs:3916 type_disambiguation *)
    T (GNT N_typ) "<Foo as Bar>"
      [CExt [] (0, 12)];
    (* src/parser/mod.rs:3922 type_disambiguation_with_associated_type *)
    T (GNT N_typ) "<Foo as Bar>::Quux"
      [CExt [] (0, 18)];
    (* src/parser/mod.rs:3928 type_disambiguation_without_disambiguation *)
    T (GNT N_typ) "<Foo>"
      [CExt [] (0, 5)];
    (* src/parser/mod.rs:3934 type_disambiguation_with_double_angle_brackets *)
    T (GNT N_typ) "<<A as B> as Option<T>>"
      [CExt [] (0, 23)];
    (* src/parser/mod.rs:3940 struct_basic *)
    T (GNT N_p_struct) "struct S { field: TheType, other: OtherType }"
      [CExt [] (0, 45)];
    (* src/parser/mod.rs:3946 struct_with_generic_fields *)
    T (GNT N_p_struct) "struct S { field: Option<u8> }"
      [CExt [] (0, 30)];
    (* src/parser/mod.rs:3952 struct_with_fields_with_no_space *)
    T (GNT N_p_struct) "struct S{a:u8}"
      [CExt [] (0, 14)];
    (* src/parser/mod.rs:3958 struct_with_fields_with_all_space *)
    T (GNT N_p_struct) "struct S { a : u8 }"
      [CExt [] (0, 19)];
    (* src/parser/mod.rs:3964 struct_with_generic_declarations *)
    T (GNT N_p_struct) "struct S<T> { field: Option<T> }"
      [CExt [] (0, 32)];
    (* src/parser/mod.rs:3970 struct_public *)
    T (GNT N_p_struct) "pub struct S {}"
      [CExt [] (0, 15)];
    (* src/parser/mod.rs:3976 struct_public_field *)
    T (GNT N_p_struct) "struct S { pub age: u8 }"
      [CExt [] (0, 24)];
    (* src/parser/mod.rs:3982 struct_with_attributed_field *)
    T (GNT N_p_struct) "struct S { #[foo(bar)] #[baz(quux)] field: u8 }"
      [CExt [] (0, 47)];
    (* src/parser/mod.rs:3988 struct_with_block_documented_field *)
    T (GNT N_p_struct) "struct S { /** use me */ field: u8 }"
      [CExt [] (0, 36)];
    (* src/parser/mod.rs:3994 struct_with_line_documented_field *)
    T (GNT N_p_struct) "struct S { /// use me
 field: u8 }"
      [CExt [] (0, 34)];
    (* src/parser/mod.rs:4000 struct_with_tuple *)
    T (GNT N_p_struct) "struct S(u8);"
      [CExt [] (0, 13)];
    (* src/parser/mod.rs:4006 struct_with_tuple_and_annotation *)
    T (GNT N_p_struct) "struct S(#[foo] u8);"
      [CExt [] (0, 20)];
    (* src/parser/mod.rs:4012 struct_with_tuple_and_visibility *)
    T (GNT N_p_struct) "struct S(pub u8);"
      [CExt [] (0, 17)];
    (* src/parser/mod.rs:4018 struct_empty *)
    T (GNT N_p_struct) "struct S;"
      [CExt [] (0, 9)];
    (* src/parser/mod.rs:4024 struct_with_where_clause *)
    T (GNT N_p_struct) "struct S<A> where A: Foo { a: A }"
      [CExt [] (0, 33)];
    (* src/parser/mod.rs:4030 struct_with_tuple_and_where_clause *)
    T (GNT N_p_struct) "struct S<A>(A) where A: Foo;"
      [CExt [] (0, 28)];
    (* src/parser/mod.rs:4036 union_basic *)
    T (GNT N_p_union) "union U { field: TheType, other: OtherType }"
      [CExt [] (0, 44)];
    (* src/parser/mod.rs:4042 union_is_still_an_ident *)
    T (GNT N_p_union) "union union { union: union }"
      [CExt [] (0, 28)];
    (* src/parser/mod.rs:4048 union_with_generic_declarations *)
    T (GNT N_p_union) "union S<T> { field: Option<T> }"
      [CExt [] (0, 31)];
    (* src/parser/mod.rs:4054 union_with_where_clause *)
    T (GNT N_p_union) "union S<A> where A: Foo { a: A }"
      [CExt [] (0, 32)];
    (* src/parser/mod.rs:4060 union_public *)
    T (GNT N_p_union) "pub union S {}"
      [CExt [] (0, 14)];
    (* src/parser/mod.rs:4066 union_public_field *)
    T (GNT N_p_union) "union S { pub age: u8 }"
      [CExt [] (0, 23)];
    (* src/parser/mod.rs:4072 union_with_attributed_field *)
    T (GNT N_p_union) "union S { #[foo(bar)] #[baz(quux)] field: u8 }"
      [CExt [] (0, 46)];
    (* src/parser/mod.rs:4078 where_clause_with_path *)
    T (GNT N_where_clause_item) "P: foo::bar::baz::Quux<'a>"
      [CExt [] (0, 26)];
    (* src/parser/mod.rs:4084 where_clause_with_multiple_bounds *)
    T (GNT N_where_clause_item) "P: A + B"
      [CExt [] (0, 8)];
    (* src/parser/mod.rs:4090 where_clause_with_multiple_types *)
    T (GNT N_where_clause) "where P: A, Q: B"
      [CExt [PI 1] (12, 16)];
    (* src/parser/mod.rs:4096 where_clause_with_lifetimes *)
    T (GNT N_where_clause_item) "'a: 'b + 'c"
      [CExt [] (0, 11)];
    (* src/parser/mod.rs:4102 where_clause_with_higher_ranked_trait_bounds *)
    T (GNT N_where_clause_item) "for<'a> [u8; 4]: Send"
      [CExt [] (0, 21)];
    (* src/parser/mod.rs:4108 ident_with_leading_underscore *)
    T (GNT N_ident) "_foo"
      [CExt [] (0, 4)];
    (* src/parser/mod.rs:4114 ident_can_have_keyword_substring *)
    T (GNT N_ident) "form"
      [CExt [] (0, 4)];
    (* src/parser/mod.rs:4120 lifetime_ident *)
    T (GNT N_lifetime) "'a"
      [CExt [] (0, 2)];
    (* src/parser/mod.rs:4126 lifetime_static *)
    T (GNT N_lifetime) "'static"
      [CExt [] (0, 7)];
    (* src/parser/mod.rs:4132 generic_declarations_ *)
    T (GNT N_generic_declarations) "<A>"
      [CExt [] (0, 3)];
    (* src/parser/mod.rs:4138 generic_declarations_allow_type_bounds *)
    T (GNT N_generic_declarations) "<A: Foo>"
      [CExt [] (0, 8)];
    (* src/parser/mod.rs:4144 generic_declarations_with_default_types *)
    T (GNT N_generic_declarations) "<A = Bar>"
      [CExt [] (0, 9)];
    (* src/parser/mod.rs:4150 generic_declarations_with_type_bounds_and_default_types *)
    T (GNT N_generic_declarations) "<A: Foo = Bar>"
      [CExt [] (0, 14)];
    (* src/parser/mod.rs:4156 generic_declarations_allow_lifetime_bounds *)
    T (GNT N_generic_declarations) "<'a: 'b>"
      [CExt [] (0, 8)];
    (* src/parser/mod.rs:4162 generic_declarations_allow_const_bounds *)
    T (GNT N_generic_declarations) "<const N: usize>"
      [CExt [] (0, 16)];
    (* src/parser/mod.rs:4168 generic_declarations_with_attributes *)
    T (GNT N_generic_declarations) "<#[foo] 'a, #[bar] B>"
      [CExt [] (0, 21)];
    (* src/parser/mod.rs:4174 generic_declarations_all_space *)
    T (GNT N_generic_declarations) "< 'a : 'b , A : Foo >"
      [CExt [] (0, 21)];
    (* src/parser/mod.rs:4180 trait_bounds_with_lifetime *)
    T (GNT N_trait_bounds) "'a + 'b"
      [CExt [] (0, 7)];
    (* src/parser/mod.rs:4186 trait_bounds_with_relaxed *)
    T (GNT N_trait_bounds) "?A + ?B"
      [CExt [] (0, 7)];
    (* src/parser/mod.rs:4192 trait_bounds_with_associated_type_equality *)
    T (GNT N_trait_bounds) "A<B, C = D>"
      [CExt [] (0, 11)];
    (* src/parser/mod.rs:4198 trait_bounds_with_associated_type_bounds *)
    T (GNT N_trait_bounds) "A<B, C: D>"
      [CExt [] (0, 10)];
    (* src/parser/mod.rs:4204 visibility_self *)
    T (GNT N_visibility) "pub(self)"
      [CExt [] (0, 9)];
    (* src/parser/mod.rs:4210 visibility_super *)
    T (GNT N_visibility) "pub(super)"
      [CExt [] (0, 10)];
    (* src/parser/mod.rs:4216 visibility_crate *)
    T (GNT N_visibility) "pub(crate)"
      [CExt [] (0, 10)];
    (* src/parser/mod.rs:4222 visibility_crate_shorthand *)
    T (GNT N_visibility) "crate"
      [CExt [] (0, 5)];
    (* src/parser/mod.rs:4228 visibility_path *)
    T (GNT N_visibility) "pub(::foo::bar)"
      [CExt [] (0, 15)];
    (* src/parser/expression.rs:1494 expression_atom_can_have_attributes *)
    T (GNT N_expression) "#[moo] 42"
      [CExt [] (0, 9)];
    (* src/parser/expression.rs:1500 expression_operator_prefix_can_have_attributes *)
    T (GNT N_expression) "#[moo] *42"
      [CExt [] (0, 10)];
    (* src/parser/expression.rs:1506 expr_true *)
    T (GNT N_expression) "true"
      [CExt [] (0, 4)];
    (* src/parser/expression.rs:1512 expr_number_binary *)
    T (GNT N_expression) "0x0101"
      [CExt [] (0, 6)];
    (* src/parser/expression.rs:1518 expr_number_decimal *)
    T (GNT N_expression) "123"
      [CExt [] (0, 3)];
    (* src/parser/expression.rs:1524 expr_number_hexadecimal *)
    T (GNT N_expression) "0xDEADBEEF"
      [CExt [] (0, 10)];
    (* src/parser/expression.rs:1530 expr_number_octal *)
    T (GNT N_expression) "0o777"
      [CExt [] (0, 5)];
    (* src/parser/expression.rs:1536 expr_number_negative *)
    T (GNT N_expression) "-0x1"
      [CExt [] (0, 4)];
    (* src/parser/expression.rs:1542 expr_number_with_spacers *)
    T (GNT N_expression) "1_000_000"
      [CExt [] (0, 9)];
    (* src/parser/expression.rs:1548 expr_let_explicit_type *)
    T (GNT N_expression) "let foo: bool"
      [CExt [] (0, 13)];
    (* src/parser/expression.rs:1554 expr_let_explicit_type_and_value_not_confused_with_greater_than_or_equal *)
    T (GNT N_expression) "let foo: Vec<u8>=vec![]"
      [CIs [] "let" true; CExt [] (0, 23)];
    (* src/parser/expression.rs:1561 expr_let_explicit_type_and_value_not_confused_with_shift_right_assign *)
    T (GNT N_expression) "let foo: Vec<Vec<u8>>=vec![]"
      [CIs [] "let" true; CExt [] (0, 28)];
    (* src/parser/expression.rs:1568 expr_let_mut *)
    T (GNT N_expression) "let mut pm = Master::new()"
      [CExt [] (0, 26)];
    (* src/parser/expression.rs:1574 expr_let_no_value *)
    T (GNT N_expression) "let pm"
      [CExt [] (0, 6)];
    (* src/parser/expression.rs:1580 expr_assign *)
    T (GNT N_expression) "a = b"
      [CExt [] (0, 5)];
    (* src/parser/expression.rs:1586 expr_assign_to_field *)
    T (GNT N_expression) "a.b = c"
      [CExt [] (0, 7)];
    (* src/parser/expression.rs:1592 expr_value_with_path *)
    T (GNT N_expression) "Master::new()"
      [CExt [] (0, 13)];
    (* src/parser/expression.rs:1598 expr_field_access_name *)
    T (GNT N_expression) "foo.bar"
      [CExt [PF "value"; PV "FieldAccess"] (0, 7); CExt [PF "value"; PV "FieldAccess"; PF "target"; PF "value"; PV "Value"] (0, 3); CExt [PF "value"; PV "FieldAccess"; PF "field"; PV "Path"] (4, 7)];
    (* src/parser/expression.rs:1611 expr_field_access_number *)
    T (GNT N_expression) "foo.0"
      [CExt [PF "value"; PV "FieldAccess"] (0, 5); CExt [PF "value"; PV "FieldAccess"; PF "target"; PF "value"; PV "Value"] (0, 3); CExt [PF "value"; PV "FieldAccess"; PF "field"; PV "Number"] (4, 5)];
    (* src/parser/expression.rs:1624 expr_field_access_multiple *)
    T (GNT N_expression) "foo.bar.baz"
      [CExt [PF "value"; PV "FieldAccess"] (0, 11); CExt [PF "value"; PV "FieldAccess"; PF "field"] (8, 11); CExt [PF "value"; PV "FieldAccess"; PF "target"; PF "value"; PV "FieldAccess"] (0, 7); CExt [PF "value"; PV "FieldAccess"; PF "target"; PF "value"; PV "FieldAccess"; PF "field"] (4, 7); CExt [PF "value"; PV "FieldAccess"; PF "target"; PF "value"; PV "FieldAccess"; PF "target"; PF "value"; PV "Value"] (0, 3)];
    (* src/parser/expression.rs:1640 expr_call_function *)
    T (GNT N_expression) "foo(a)"
      [CExt [PF "value"; PV "Call"] (0, 6)];
    (* src/parser/expression.rs:1653 expr_call_method *)
    T (GNT N_expression) "foo.bar(a)"
      [CExt [PF "value"; PV "Call"] (0, 10)];
    (* src/parser/expression.rs:1670 expr_call_method_multiple *)
    T (GNT N_expression) "foo.bar(a).baz(b)"
      [CExt [PF "value"; PV "Call"] (0, 17)];
    (* src/parser/expression.rs:1696 expr_call_method_with_turbofish *)
    T (GNT N_expression) "foo.bar::<u8>()"
      [CIs [] "call" true; CExt [] (0, 15)];
    (* src/parser/expression.rs:1703 expr_call_method_with_turbofish_nested *)
    T (GNT N_expression) "e.into_iter().collect::<BTreeSet<_>>()"
      [CIs [] "call" true; CExt [] (0, 38)];
    (* src/parser/expression.rs:1710 expr_call_method_with_turbofish_on_type_and_method *)
    T (GNT N_expression) "Foo::<u8>::bar()"
      [CIs [] "call" true; CExt [] (0, 16)];
    (* src/parser/expression.rs:1717 expr_call_of_expr *)
    T (GNT N_expression) "{foo}()"
      [CIs [] "call" true; CExt [] (0, 7)];
    (* src/parser/expression.rs:1724 expr_for_loop *)
    T (GNT N_expression) "for (a, b) in c {}"
      [CExt [] (0, 18)];
    (* src/parser/expression.rs:1730 expr_for_loop_with_label *)
    T (GNT N_expression) "'a: for (a, b) in c {}"
      [CExt [] (0, 22)];
    (* src/parser/expression.rs:1736 expr_loop *)
    T (GNT N_expression) "loop {}"
      [CExt [] (0, 7)];
    (* src/parser/expression.rs:1742 expr_loop_with_label *)
    T (GNT N_expression) "'a: loop {}"
      [CExt [] (0, 11)];
    (* src/parser/expression.rs:1748 expr_match *)
    T (GNT N_expression) "match foo { _ => () }"
      [CExt [] (0, 21)];
    (* src/parser/expression.rs:1754 expr_match_brace_with_no_comma_followed_by_tuple_is_not_a_function_call *)
    T (GNT N_expression) "match (1,) { (1,) => {} (_,) => {} }"
      [CExt [] (0, 36)];
    (* src/parser/expression.rs:1762 expr_match_expr_trailing_comma_and_whitespace *)
    T (GNT N_expression) "match 1 { 1 => 2, _ => 3, }"
      [CExt [] (0, 27)];
    (* src/parser/expression.rs:1768 expr_match_head_followed_by_block *)
    T (GNT N_expression) "match foo {}"
      [CExt [] (0, 12)];
    (* src/parser/expression.rs:1774 expr_tuple *)
    T (GNT N_expression) "(1, 2)"
      [CExt [] (0, 6); CIs [] "tuple" true];
    (* src/parser/expression.rs:1781 expr_tuple_of_none *)
    T (GNT N_expression) "()"
      [CExt [] (0, 2); CIs [] "tuple" true];
    (* src/parser/expression.rs:1788 expr_tuple_of_one *)
    T (GNT N_expression) "(1,)"
      [CExt [] (0, 4); CIs [] "tuple" true];
    (* src/parser/expression.rs:1795 expr_parens *)
    T (GNT N_expression) "(a && b)"
      [CExt [] (0, 8); CIs [] "parenthetical" true];
    (* src/parser/expression.rs:1802 expr_parens_with_one_value_is_not_tuple *)
    T (GNT N_expression) "(1)"
      [CExt [] (0, 3); CIs [] "parenthetical" true];
    (* src/parser/expression.rs:1809 expr_block *)
    T (GNT N_expression) "{}"
      [CExt [] (0, 2)];
    (* src/parser/expression.rs:1815 expr_unsafe_block *)
    T (GNT N_expression) "unsafe {}"
      [CExt [] (0, 9)];
    (* src/parser/expression.rs:1821 expr_async_block *)
    T (GNT N_expression) "async {}"
      [CExt [] (0, 8); CIs [] "async_block" true];
    (* src/parser/expression.rs:1828 expr_async_move_block *)
    T (GNT N_expression) "async move {}"
      [CExt [] (0, 13); CIs [PF "value"; PV "AsyncBlock"; PF "is_move"] "some" true];
    (* src/parser/expression.rs:1836 expr_if_ *)
    T (GNT N_expression) "if a {}"
      [CExt [] (0, 7)];
    (* src/parser/expression.rs:1842 expr_if_else *)
    T (GNT N_expression) "if a {} else {}"
      [CExt [] (0, 15)];
    (* src/parser/expression.rs:1848 expr_if_else_if *)
    T (GNT N_expression) "if a {} else if b {}"
      [CExt [] (0, 20)];
    (* src/parser/expression.rs:1855 expr_if_let *)
    T (GNT N_expression) "if let Some(a) = None {}"
      [CExt [] (0, 24)];
    (* src/parser/expression.rs:1861 expr_while *)
    T (GNT N_expression) "while is_awesome() {}"
      [CExt [] (0, 21)];
    (* src/parser/expression.rs:1867 expr_while_with_label *)
    T (GNT N_expression) "'a: while is_awesome() {}"
      [CExt [] (0, 25)];
    (* src/parser/expression.rs:1873 expr_while_let *)
    T (GNT N_expression) "while let Some(a) = None {}"
      [CExt [] (0, 27)];
    (* src/parser/expression.rs:1879 expr_while_let_with_label *)
    T (GNT N_expression) "'a: while let Some(a) = None {}"
      [CExt [] (0, 31)];
    (* src/parser/expression.rs:1885 expr_binary_op *)
    T (GNT N_expression) "a < b"
      [CExt [] (0, 5)];
    (* src/parser/expression.rs:1891 expr_binary_multiple *)
    T (GNT N_expression) "1 + 2 + 3"
      [CExt [] (0, 9)];
    (* src/parser/expression.rs:1897 expr_binary_op_two_char *)
    T (GNT N_expression) "a >= b"
      [CExt [] (0, 6)];
    (* src/parser/expression.rs:1903 expr_binary_op_equality *)
    T (GNT N_expression) "a == b != c"
      [CExt [] (0, 11)];
    (* src/parser/expression.rs:1909 expr_binary_op_math *)
    T (GNT N_expression) "a + b - c / d % e"
      [CExt [] (0, 17)];
    (* src/parser/expression.rs:1915 expr_binary_op_boolean_logic *)
    T (GNT N_expression) "a && b || c"
      [CExt [] (0, 11)];
    (* src/parser/expression.rs:1921 expr_binary_op_shifting *)
    T (GNT N_expression) "a >> b << c"
      [CExt [] (0, 11)];
    (* src/parser/expression.rs:1927 expr_binary_op_shift_assign *)
    T (GNT N_expression) "a >>= b <<= c"
      [CExt [] (0, 13)];
    (* src/parser/expression.rs:1933 expr_binary_op_bitwise *)
    T (GNT N_expression) "a & b | c ^ d"
      [CExt [] (0, 13)];
    (* src/parser/expression.rs:1939 expr_binary_op_bitwise_assign *)
    T (GNT N_expression) "a &= b |= c ^= d"
      [CExt [] (0, 16)];
    (* src/parser/expression.rs:1945 expr_braced_true *)
    T (GNT N_expression) "{ true }"
      [CExt [] (0, 8)];
    (* src/parser/expression.rs:1951 expr_macro_call_with_nested_parens *)
    T (GNT N_expression) "foo!(())"
      [CExt [] (0, 8)];
    (* src/parser/expression.rs:1957 expr_macro_call_with_quoted_parens *)
    T (GNT N_expression) "foo!(""("")"
      [CExt [] (0, 9)];
    (* src/parser/expression.rs:1963 expr_macro_call_with_square_brackets *)
    T (GNT N_expression) "vec![]"
      [CExt [] (0, 6)];
    (* src/parser/expression.rs:1969 expr_macro_call_with_curly_brackets *)
    T (GNT N_expression) "foo! { }"
      [CExt [] (0, 8)];
    (* src/parser/expression.rs:1975 expr_macro_call_with_ident *)
    T (GNT N_expression) "macro_rules! foo { }"
      [CExt [] (0, 20)];
    (* src/parser/expression.rs:1981 expr_macro_call_with_path *)
    T (GNT N_expression) "my_crate::my_macro!()"
      [CExt [] (0, 21)];
    (* src/parser/expression.rs:1987 expr_range_both *)
    T (GNT N_expression) "1..2"
      [CExt [] (0, 4)];
    (* src/parser/expression.rs:1993 expr_range_left *)
    T (GNT N_expression) "3.."
      [CExt [] (0, 3)];
    (* src/parser/expression.rs:1999 expr_range_right *)
    T (GNT N_expression) "..4"
      [CExt [] (0, 3)];
    (* src/parser/expression.rs:2005 expr_range_none *)
    T (GNT N_expression) ".."
      [CExt [] (0, 2)];
    (* src/parser/expression.rs:2011 expr_range_after_infix *)
    T (GNT N_expression) "1 + 2.."
      [CExt [] (0, 7)];
    (* src/parser/expression.rs:2017 expr_range_inclusive_both *)
    T (GNT N_expression) "1..=2"
      [CExt [] (0, 5)];
    (* src/parser/expression.rs:2023 expr_range_inclusive_left *)
    T (GNT N_expression) "3..="
      [CExt [] (0, 4)];
    (* src/parser/expression.rs:2029 expr_range_inclusive_right *)
    T (GNT N_expression) "..=4"
      [CExt [] (0, 4)];
    (* src/parser/expression.rs:2035 expr_range_inclusive_none *)
    T (GNT N_expression) "..="
      [CExt [] (0, 3)];
    (* src/parser/expression.rs:2041 expr_range_inclusive_legacy_both *)
    T (GNT N_expression) "1...2"
      [CExt [] (0, 5)];
    (* src/parser/expression.rs:2047 expr_range_inclusive_legacy_left *)
    T (GNT N_expression) "3..."
      [CExt [] (0, 4)];
    (* src/parser/expression.rs:2053 expr_range_inclusive_legacy_right *)
    T (GNT N_expression) "...4"
      [CExt [] (0, 4)];
    (* src/parser/expression.rs:2059 expr_range_inclusive_legacy_none *)
    T (GNT N_expression) "..."
      [CExt [] (0, 3)];
    (* src/parser/expression.rs:2065 expr_value_struct_literal *)
    T (GNT N_expression) "Point { a: 1 }"
      [CExt [] (0, 14)];
    (* src/parser/expression.rs:2071 expr_value_struct_literal_shorthand *)
    T (GNT N_expression) "Point { a }"
      [CExt [] (0, 11)];
    (* src/parser/expression.rs:2077 expr_value_struct_literal_with_splat *)
    T (GNT N_expression) "Point { x: 1, ..point }"
      [CExt [] (0, 23)];
    (* src/parser/expression.rs:2083 expr_value_starts_with_keyword *)
    T (GNT N_expression) "continuez"
      [CExt [] (0, 9)];
    (* src/parser/expression.rs:2089 expr_closure *)
    T (GNT N_expression) "|a| a"
      [CExt [] (0, 5)];
    (* src/parser/expression.rs:2095 expr_closure_no_args *)
    T (GNT N_expression) "|| 42"
      [CExt [] (0, 5)];
    (* src/parser/expression.rs:2101 expr_closure_multiple *)
    T (GNT N_expression) "|a, b| a + b"
      [CExt [] (0, 12)];
    (* src/parser/expression.rs:2107 expr_closure_explicit_type *)
    T (GNT N_expression) "|a: u8| a"
      [CExt [] (0, 9)];
    (* src/parser/expression.rs:2113 expr_closure_return_type *)
    T (GNT N_expression) "|a| -> u8 { a }"
      [CExt [] (0, 15)];
    (* src/parser/expression.rs:2119 expr_closure_pattern *)
    T (GNT N_expression) "|&a| a"
      [CExt [] (0, 6)];
    (* src/parser/expression.rs:2125 expr_closure_move *)
    T (GNT N_expression) "move || 42"
      [CExt [] (0, 10)];
    (* src/parser/expression.rs:2131 expr_closure_async *)
    T (GNT N_expression) "async || 42"
      [CExt [] (0, 11); CIs [PF "value"; PV "Closure"; PF "is_async"] "some" true];
    (* src/parser/expression.rs:2139 expr_return *)
    T (GNT N_expression) "return 1"
      [CExt [] (0, 8)];
    (* src/parser/expression.rs:2145 expr_return_no_value *)
    T (GNT N_expression) "return"
      [CExt [] (0, 6)];
    (* src/parser/expression.rs:2151 expr_continue *)
    T (GNT N_expression) "continue"
      [CIs [] "continue" true; CExt [] (0, 8)];
    (* src/parser/expression.rs:2158 expr_continue_with_label *)
    T (GNT N_expression) "continue 'outer"
      [CIs [] "continue" true; CExt [] (0, 15)];
    (* src/parser/expression.rs:2165 expr_break *)
    T (GNT N_expression) "break"
      [CIs [] "break" true; CExt [] (0, 5)];
    (* src/parser/expression.rs:2172 expr_break_with_label *)
    T (GNT N_expression) "break 'outer"
      [CIs [] "break" true; CExt [] (0, 12)];
    (* src/parser/expression.rs:2179 expr_break_with_value *)
    T (GNT N_expression) "break 42"
      [CIs [] "break" true; CExt [] (0, 8)];
    (* src/parser/expression.rs:2186 expr_break_with_label_and_value *)
    T (GNT N_expression) "break 'outer 42"
      [CIs [] "break" true; CExt [] (0, 15)];
    (* src/parser/expression.rs:2193 expr_array_explicit *)
    T (GNT N_expression) "[1, 1]"
      [CExt [] (0, 6)];
    (* src/parser/expression.rs:2199 expr_array_repeated *)
    T (GNT N_expression) "[1; 2*3]"
      [CExt [] (0, 8)];
    (* src/parser/expression.rs:2205 expr_char_literal *)
    T (GNT N_expression) "'a'"
      [CExt [] (0, 3)];
    (* src/parser/expression.rs:2211 expr_char_literal_escape *)
    T (GNT N_expression) "'\''"
      [CExt [] (0, 4)];
    (* src/parser/expression.rs:2217 expr_string_literal *)
    T (GNT N_expression) """a"""
      [CExt [] (0, 3)];
    (* src/parser/expression.rs:2223 expr_string_literal_escape *)
    T (GNT N_expression) """\"""""
      [CExt [] (0, 4)];
    (* src/parser/expression.rs:2229 expr_string_literal_raw *)
    T (GNT N_expression) "r#""foo""#"
      [CExt [] (0, 8)];
    (* src/parser/expression.rs:2235 expr_slice_index *)
    T (GNT N_expression) "a[..2]"
      [CExt [] (0, 6)];
    (* src/parser/expression.rs:2241 expr_reference *)
    T (GNT N_expression) "&foo"
      [CExt [] (0, 4)];
    (* src/parser/expression.rs:2247 expr_reference_of_reference *)
    T (GNT N_expression) "&&foo"
      [CExt [PF "value"; PV "Reference"] (0, 5); CExt [PF "value"; PV "Reference"; PF "target"; PF "value"; PV "Reference"] (1, 5); CExt [PF "value"; PV "Reference"; PF "target"; PF "value"; PV "Reference"; PF "target"; PF "value"; PV "Value"] (2, 5)];
    (* src/parser/expression.rs:2261 expr_reference_mut *)
    T (GNT N_expression) "&mut foo"
      [CExt [] (0, 8)];
    (* src/parser/expression.rs:2267 expr_dereference *)
    T (GNT N_expression) "*foo"
      [CExt [] (0, 4)];
    (* src/parser/expression.rs:2273 expr_unary_not *)
    T (GNT N_expression) "!foo"
      [CExt [] (0, 4)];
    (* src/parser/expression.rs:2279 expr_unary_negate *)
    T (GNT N_expression) "-foo"
      [CExt [] (0, 4)];
    (* src/parser/expression.rs:2285 expr_as_type *)
    T (GNT N_expression) "42 as u8"
      [CExt [] (0, 8)];
    (* src/parser/expression.rs:2291 expr_as_type_followed_by_addition *)
    T (GNT N_expression) "42 as u8 + 1"
      [CIs [PF "value"; PA "binary"; PF "lhs"] "as_type" true; CExt [PF "value"; PA "binary"] (0, 12)];
    (* src/parser/expression.rs:2299 expr_as_type_followed_by_addition_of_variable *)
    T (GNT N_expression) "42 as u8 + a"
      [CIs [PF "value"; PA "binary"; PF "lhs"] "as_type" true; CExt [PF "value"; PA "binary"] (0, 12)];
    (* src/parser/expression.rs:2307 expr_as_type_of_value *)
    T (GNT N_expression) "bits as u64"
      [CExt [] (0, 11)];
    (* src/parser/expression.rs:2313 expr_type_ascription *)
    T (GNT N_expression) "42 : u8"
      [CExt [] (0, 7)];
    (* src/parser/expression.rs:2319 expr_infix_with_left_hand_prefix_operator *)
    T (GNT N_expression) "*a + b"
      [CExt [] (0, 6)];
    (* src/parser/expression.rs:2325 expr_infix_with_right_hand_prefix_operator *)
    T (GNT N_expression) "a + *b"
      [CExt [] (0, 6)];
    (* src/parser/expression.rs:2331 expr_infix_with_left_and_right_hand_prefix_operator *)
    T (GNT N_expression) "*a + *b"
      [CExt [] (0, 7)];
    (* src/parser/expression.rs:2337 expr_infix_with_left_hand_postfix_operator *)
    T (GNT N_expression) "a? + b"
      [CExt [] (0, 6)];
    (* src/parser/expression.rs:2343 expr_infix_with_right_hand_postfix_operator *)
    T (GNT N_expression) "a + b?"
      [CExt [] (0, 6)];
    (* src/parser/expression.rs:2349 expr_infix_with_left_and_right_hand_postfix_operator *)
    T (GNT N_expression) "a? + b?"
      [CExt [] (0, 7)];
    (* src/parser/expression.rs:2355 expr_infix_with_left_hand_prefix_and_postfix_operator *)
    T (GNT N_expression) "*a? + b"
      [CExt [] (0, 7)];
    (* src/parser/expression.rs:2361 expr_infix_with_right_hand_prefix_and_postfix_operator *)
    T (GNT N_expression) "a + *b?"
      [CExt [] (0, 7)];
    (* src/parser/expression.rs:2367 expr_infix_with_left_and_right_hand_prefix_and_postfix_operator *)
    T (GNT N_expression) "*a? + *b?"
      [CExt [] (0, 9)];
    (* src/parser/expression.rs:2373 expr_multiple_prefix_operator *)
    T (GNT N_expression) "&*a"
      [CExt [] (0, 3)];
    (* src/parser/expression.rs:2379 expr_try_operator *)
    T (GNT N_expression) "foo?"
      [CExt [] (0, 4)];
    (* src/parser/expression.rs:2385 expr_box *)
    T (GNT N_expression) "box foo"
      [CExt [] (0, 7)];
    (* src/parser/expression.rs:2391 expr_byte_string *)
    T (GNT N_expression) "b""hello"""
      [CExt [] (0, 8)];
    (* src/parser/expression.rs:2397 expr_byte_string_escape *)
    T (GNT N_expression) "b""he\""llo"""
      [CExt [] (0, 10)];
    (* src/parser/expression.rs:2403 expr_byte_string_raw *)
    T (GNT N_expression) "br#""hello""#"
      [CExt [] (0, 11)];
    (* src/parser/expression.rs:2409 expr_byte *)
    T (GNT N_expression) "b'a'"
      [CExt [] (0, 4)];
    (* src/parser/expression.rs:2415 expr_byte_escape *)
    T (GNT N_expression) "b'\''"
      [CExt [] (0, 5)];
    (* src/parser/expression.rs:2421 expr_disambiguation *)
    T (GNT N_expression) "<Foo as Bar>::quux"
      [CExt [] (0, 18)];
    (* src/parser/expression.rs:2427 expr_disambiguation_without_disambiguation *)
    T (GNT N_expression) "<Foo>::quux"
      [CExt [] (0, 11)];
    (* src/parser/expression.rs:2433 implicit_statement_followed_by_infix *)
    T (GNT N_statement_expression) "if a {} + c"
      [CExt [] (0, 7)];
    (* src/parser/expression.rs:2439 implicit_statement_followed_by_infix_with_infix_inside *)
    T (GNT N_statement_expression) "for a in b + c {} + d"
      [CExt [] (0, 17)];
    (* src/parser/expression.rs:2445 implicit_statement_followed_by_infix_with_braced_infix_inside *)
    T (GNT N_statement_expression) "if {a} < b {} &mut c"
      [CExt [] (0, 13)];
    (* src/parser/expression.rs:2451 implicit_statement_in_infix *)
    T (GNT N_statement_expression) "a + loop {} + d"
      [CExt [] (0, 15)];
    (* src/parser/expression.rs:2457 implicit_statement_with_prefix_followed_by_infix *)
    T (GNT N_statement_expression) "*match a { _ => b } = c"
      [CExt [] (0, 23)];
    (* src/parser/expression.rs:2463 implicit_statement_followed_by_field_access *)
    T (GNT N_statement_expression) "{ a }.foo()"
      [CExt [] (0, 11)];
    (* src/parser/expression.rs:2469 implicit_statement_followed_by_question_mark *)
    T (GNT N_statement_expression) "unsafe { a }?"
      [CExt [] (0, 13)];
    (* src/parser/expression.rs:2475 implicit_statement_followed_by_tuple_is_not_call *)
    T (GNT N_statement_expression) "if let Some(a) = b {} (c, d)"
      [CExt [] (0, 21); CIs [] "if" true];
    (* src/parser/expression.rs:2482 expr_followed_by_block_disallows_struct_literal *)
    T (GNT N_expr_followed_by_block) "a {}"
      [CExt [P1] (0, 1); CExt [P2] (2, 4)];
    (* src/parser/expression.rs:2489 expr_followed_by_block_with_compound_condition *)
    T (GNT N_expr_followed_by_block) "a && b {}"
      [CExt [P1] (0, 6); CExt [P2] (7, 9)];
    (* src/parser/expression.rs:2496 expr_followed_by_block_with_parenthesized_struct_literal *)
    T (GNT N_expr_followed_by_block) "(a {}) {}"
      [CExt [P1] (0, 6); CIs [P1; PF "value"; PA "parenthetical"; PF "expression"] "value" true; CExt [P2] (7, 9)];
    (* src/parser/expression.rs:2505 expr_followed_by_block_with_open_ended_range *)
    T (GNT N_expr_followed_by_block) "0.. {}"
      [CExt [P1] (0, 3); CIs [P1] "range" true; CExt [P2] (4, 6)];
    (* src/parser/expression.rs:2513 expr_followed_by_block_with_range_with_curly_start *)
    T (GNT N_expr_followed_by_block) "{0}.. {}"
      [CExt [P1] (0, 5); CIs [P1] "range" true; CExt [P2] (6, 8)];
    (* src/parser/expression.rs:2521 match_arm_with_alternate *)
    T (GNT N_match_arm) "a | b => 1"
      [CExt [] (0, 10)];
    (* src/parser/expression.rs:2527 match_arm_with_guard *)
    T (GNT N_match_arm) "a if a > 2 => 1"
      [CExt [] (0, 15)];
    (* src/parser/expression.rs:2533 match_arm_with_attribute *)
    T (GNT N_match_arm) "#[cfg(cool)] _ => 1"
      [CExt [] (0, 19)];
    (* src/parser/expression.rs:2539 prefix_operator_with_missing_target *)
    T (GNT N_expression) "*"
      [CErrAt 1];
    (* src/parser/expression.rs:2545 prefix_operator_with_missing_target_but_existing_expression *)
    T (GNT N_expression) "a * *"
      [CErrAt 3]].

Example unit_tests_pass : forallb passes tests = true.
Proof. vm_compute. reflexivity. Qed.
