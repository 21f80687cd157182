{
 "C15": {
  "status": "partial",
  "note": "The rows of the embedded tables up to 10^9 are checked by a proved prime-summing recursion; of the rows above 10^9 only the parity of sum against count is checked."
 },
 "C65": {
  "note": "That comments may stand wherever the reference syntax allows white space is C51_reference_syntax, whose spacing includes line comments; C63_operators_continue shows it for operators."
 }
}