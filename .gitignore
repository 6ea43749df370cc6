*.vo
*.vok
*.vos
*.glob
.*.aux
*.d
Makefile
Makefile.conf
.lia.cache
.nia.cache
.nra.cache
.Makefile.d
*.cache
