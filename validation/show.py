import re,json,sys
names=json.load(open('/tmp/oracle/names.json'))
s=open(sys.argv[1],encoding='latin-1').read()
for m in re.finditer(r'= \((\d+), "(\w+)"%string, "(.*?)"%string\)\s*\n\s*: nat',s,re.S):
  if m.group(2) in ('DIFF','SYNTAX','OTHER','INVALID','FUEL','UNDEF','NOERR'): print(names[int(m.group(1))],m.group(2),repr(m.group(3)[:600]))
for m in re.finditer(r'chk (\d+) \(frobby[^\n]*\n(?:(?!chk).)*?Error: (\w+)',s,re.S): print('ERR',names[int(m.group(1))],m.group(2))
