*.vo
*.vok
*.vos
*.glob
*.aux
.*.aux
*.cache
.lia.cache
.nia.cache
.Makefile.d
Makefile
Makefile.conf
*.d
.coqdeps.d
